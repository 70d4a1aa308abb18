(** Property C98: provers of polynomial evaluations whose elements of the groups are combinations of SRS elements. *)
Require Import List Arith NArith ZArith Lia Bool Field.
Import ListNotations.
Require Import Verif.Outcome Verif.Algebra Verif.Zp Verif.Rust Verif.InnerProducts Verif.Commitments
  Verif.Gipa Verif.Poly Verif.Tipa Verif.Ssm Verif.Floats Verif.PolyCommit Verif.Groth16 Verif.Spec Verif.ListFacts
  Verif.RustFacts Verif.InnerProductFacts Verif.CommitFacts Verif.GipaFacts Verif.GipaComplete Verif.GipaTop Verif.GipaAttack
  Verif.SerFacts Verif.PolyFacts Verif.KeyFacts Verif.TipaFacts Verif.SsmFacts Verif.RootFacts Verif.Groth16Facts Verif.PcFacts Verif.UpcFacts
  Verif.VerifyFacts Verif.SpecialFacts Verif.SsmSpecial Verif.PcSpecial Verif.Forking Verif.ForkingTwo
  Verif.PropsBase Verif.PropsGipa Verif.PropsTipa Verif.PropsSsm Verif.PropsVerify Verif.PropsSpecial Verif.PropsGroth Verif.PropsPcVerify Verif.PropsGrothVerify
  Verif.Forger Verif.PcAttack Verif.TipaForge Verif.PropsPoly Verif.PropsTipaForge Verif.PropsSsmSpecial Verif.PropsPcSpecial
  Verif.PropsForking Verif.PropsForkingTwo Verif.PropsMalleable Verif.Algebraic Verif.PropsAlgebraic Verif.PcAlgebraic.

(** A prover: the commitment to p(x, Y); the rounds, last messages, final key and opening of the argument about the rows;
    and the KZG opening, for the challenges and the point.  The last message, the final key and the two openings are given
    by their coefficients, the round messages and the commitment to p(x, Y) are arbitrary. *)
Record pc_prover (P : pairing) : Type := mk_pc_prover {
  pcp_comm : pG1 P;
  pcp_arg : a_prover P (com3 (mod_carrier (pGT P)) (mod_carrier (fmod (pK P))) (identity_output (pG1 P)) *
      com3 (mod_carrier (pGT P)) (mod_carrier (fmod (pK P))) (identity_output (pG1 P))) (comb P) (fmod (pK P)) (comb P);
  pcp_kzg : list (pK P) -> pK P -> comb P }.
Arguments mk_pc_prover {P}.
Arguments pcp_comm {P}.
Arguments pcp_arg {P}.
Arguments pcp_kzg {P}.

(** what is found: a polynomial in alpha and beta, by the powers of beta; or, for every row, the coefficients of the powers
    of alpha and that of beta *)
Inductive pc_found (P : pairing) : Type :=
| PcRelation (rel : list (list (pK P)))
| PcRows (rows : list (list (pK P) * pK P))
| PcNothing.
Arguments PcRelation {P}.
Arguments PcRows {P}.
Arguments PcNothing {P}.

Section Convince.
  Context {P : pairing}.
  Notation K := (pK P).
  (** a combination of the KZG powers of g and of g^beta *)
  Definition comb_kzg (s : srs P * list (pG1 P)) (c : comb P) : pG1 P := combination (snd s) (srs_g_beta (fst s)) c.

  (** It convinces with the challenges cs and the point z of the key opening if the verifier accepts its opening for a hash
      function that produces these. *)
  Definition pc_convinces (verify : (bytes -> bytes) -> nat -> opening_proof P -> res bool) (s : srs P * list (pG1 P))
      (pr : pc_prover P) (cs : list K) (z : K) : Prop :=
    let a := pcp_arg pr in
    let st := rounds_sent (apr_next a) [] cs in
    let ck := comb_g2 (fst s) (apr_keys a cs) in
    exists D fuel, digest16 D /\ round_challenges D fuel f0 st cs /\ drawn D fuel (fser (last cs f0) ++ mser ck) z /\
      verify D fuel (mk_opening
        (mk_tssm_proof (mk_gipa_proof (rev st) (comb_kzg s (fst (apr_final a cs)), snd (apr_final a cs))) ck (comb_g2 (fst s) (apr_open a cs z)))
        (pcp_comm pr) (comb_kzg s (pcp_kzg pr cs z))) = Ok true.

  (** the extractor: a relation from a run; else rewind, extract the coefficients of the rows, and compare with the KZG opening *)
  Definition nonzero_poly (p : list (list K)) : bool := existsb nonzero p.
  Definition rel_poly (n : nat) (rel : relation P) : list (list K) :=
    match rel with InBeta u v => in_second (2 * n) u v | InAlpha u v => [u; v] end.
  Definition pc_tree (m d : nat) (pr : pc_prover P) (Ch : list K) (k : nat) (L : list (list K * K)) :=
    rewind (apr_next (pcp_arg pr)) (fun cs => (row_of m (fst (apr_final (pcp_arg pr) cs)), snd (apr_final (pcp_arg pr) cs))) Ch k (heavy L Ch k d).
  Definition pc_extract (n m : nat) (x y e : K) (pr : pc_prover P) (Ch : list K) (k : nat) (L : list (list K * K)) : pc_found P :=
    let a := pcp_arg pr in
    match first_some (fun r => tssm_relation n (apr_keys a (fst r)) (apr_open a (fst r) (snd r)) (fst r) (snd r)) L with
    | Some rel => PcRelation (rel_poly n rel)
    | None =>
      match pc_tree m (2 * n - 2) pr Ch k L, L with
      | Some t, run :: _ =>
        match extract1 t with
        | inr w => PcRelation (rows_poly (map (row_list m) w))
        | inl rows =>
          let c := row_check m (mev rows x) (row_of m (pcp_kzg pr (fst run) (snd run))) y e in
          if nonzero_poly c then PcRelation c else PcRows (map (row_list m) rows)
        end
      | _, _ => PcNothing
      end
    end.
  (** two different lists of rows for one commitment *)
  Definition rows_differ (m : nat) (a b : list (list K * K)) : list (list K) :=
    rows_poly (map (row_list m) (zipw (fun r r' => row_of m r +m mopp (row_of m r')) a b)).
  Definition pc_bind (m : nat) (f1 f2 : pc_found P) : option (list (list K)) :=
    match f1, f2 with
    | PcRelation rel, _ => Some rel
    | _, PcRelation rel => Some rel
    | PcRows a, PcRows b => Some (rows_differ m a b)
    | _, _ => None
    end.
End Convince.

Section C98.
  Context {R : Type} {P : pairing}.
  Notation K := (pK P).
  Add Field KfC98 : (f_theory (pK P)).
  Hypotheses (Hg : pr_g P <> m0) (Hh : pr_h P <> m0).
  Variables (E : penv) (HE : 1 <= threads E) (rand : sampler R (pK P)) (r2 : sampler R (pG2 P)).

  Lemma nonzero_poly_true (p : list (list K)) : nonzero_poly p = true -> exists r c, In r p /\ In c r /\ c <> f0.
  Proof using.
    clear. intros H. apply existsb_exists in H as [r [Hr H]]. apply nonzero_true in H as [c [H1 H2]]. exists r, c. auto.
  Qed.
  Lemma nonzero_poly_false (p : list (list K)) : nonzero_poly p = false -> forall r c, In r p -> In c r -> c = f0.
  Proof using.
    clear. intros H r c Hr Hc. apply (nonzero_false r); [|exact Hc]. destruct (nonzero r) eqn:En; [|reflexivity]. exfalso.
    assert (nonzero_poly p = true); [|congruence]. apply existsb_exists. now exists r.
  Qed.

  Section Rows.
    Variables (alpha beta : K) (m : nat).
    Definition row_g (r : row m) : pG1 P := row_at m alpha beta r *m pr_g P.
    Lemma row_g_add r s : row_g (r +m s) = row_g r +m row_g s.
    Proof. unfold row_g. now rewrite row_at_add, mscale_add_l. Qed.
    Lemma row_g_scale c r : row_g (c *m r) = c *m row_g r.
    Proof. unfold row_g. now rewrite row_at_scale, mscale_mul. Qed.
    Definition key_row (k : pG2 P) (r : row m) : pGT P := phi_g1 P k (row_g r).
    Definition row_ip (r : row m) (c : fmod K) : pG1 P := smul (row_g r) c.
    Lemma key_row_bilinear : bilinear key_row.
    Proof.
      split; unfold key_row, phi_g1; intros.
      - apply e_add_r.
      - rewrite row_g_add. apply e_add_l.
      - apply e_scale_r.
      - rewrite row_g_scale. apply e_scale_l.
    Qed.
    Lemma row_ip_bilinear : bilinear row_ip.
    Proof.
      destruct (li_bil _ _ (multiexp_ip_law (pG1 P))) as [B1 B2 B3 B4]. split; unfold row_ip; intros.
      - rewrite row_g_add. apply B1.
      - apply B2.
      - rewrite row_g_scale. apply B3.
      - apply B4.
    Qed.
    Lemma key_row_dot n (w : list (row m)) : length w = n ->
      dot key_row (key_vec n beta f1 (pr_h P)) w =
      fbig n (fun i => row_at m alpha beta (nth i w m0) *f fpow (beta *f beta) i) *m pr_e P (pr_g P) (pr_h P).
    Proof.
      intros Hl. rewrite dot_big by (now rewrite key_vec_length). rewrite key_vec_length.
      transitivity (big n (fun i => (row_at m alpha beta (nth i w m0) *f fpow (beta *f beta) i) *m pr_e P (pr_g P) (pr_h P))).
      - apply big_ext. intros i Hi. unfold key_row, phi_g1, row_g, at_, key_vec.
        rewrite (nth_indep _ m0 (fpow (beta *f beta *f f1) 0 *m pr_h P)) by (now rewrite map_length, seq_length).
        rewrite (map_nth (fun i => fpow (beta *f beta *f f1) i *m pr_h P)), seq_nth by exact Hi. cbn [Nat.add].
        replace (beta *f beta *f f1) with (beta *f beta) by ring. now rewrite e_scale_l, e_scale_r, <- mscale_mul.
      - clear. induction n as [|n IH]; cbn [big fbig]; [now rewrite mscale_0_l|]. now rewrite IH, mscale_add_l.
    Qed.
    Lemma row_ip_dot n x (a : list (row m)) : length a = n -> dot row_ip a (powers n x) = row_g (mev a x).
    Proof.
      intros Hl. rewrite dot_big by (now rewrite powers_length'). rewrite Hl.
      transitivity (big n (fun i => fpow x i *m row_g (at_ a i))).
      - apply big_ext. intros i Hi. unfold row_ip, smul. f_equal. unfold powers. now apply fat_map_seq.
      - rewrite <- Hl. clear. induction a as [|r a IH]; [symmetry; unfold row_g; cbn [length big mev]; rewrite row_at_0; apply mscale_0_l|].
        cbn [length mev]. rewrite big_S_l, row_g_add, row_g_scale, <- IH. unfold at_ at 1. cbn [nth fpow]. rewrite mscale_1. f_equal.
        rewrite <- big_scale. apply big_ext. intros i _. unfold at_. cbn [nth]. now rewrite mscale_mul.
    Qed.
  End Rows.

  Section Main.
    Variables (alpha beta : K) (xd yd k : nat).
    Notation s := (trap_bsrs alpha beta xd yd).
    Notation n := (xd + 1).
    Notation m := (yd + 1).
    Hypothesis Hn : xd + 1 = 2 ^ k.
    Notation ka := (key_vec (xd + 1) beta f1 (pr_h P)).

    Lemma eh_nonzero : pr_e P (pr_g P) (pr_h P) <> m0.
    Proof using Hg. intros H. apply Hg. now apply e_nondeg_l. Qed.
    Lemma trap_ok : srs_ok (trap_srs alpha beta n) alpha beta n.
    Proof using. apply srs_ok_iff. reflexivity. Qed.
    Lemma comb_g2_trap c : comb_g2 (fst s) c = comb_g2 (trap_srs alpha beta n) c.
    Proof using.
      clear HE Hn. unfold comb_g2, trap_bsrs, trap_srs. cbn [fst h_beta_powers srs_h_alpha]. do 3 f_equal. lia.
    Qed.
    Lemma comb_kzg_row c : comb_kzg s c = row_g alpha beta m (row_of m c).
    Proof using.
      unfold comb_kzg. rewrite (combination_eval _ _ (pr_g P) alpha beta c m).
      - unfold row_g, row_at, veval, row_of. cbn [fst snd]. now rewrite vlist_vof.
      - apply kzg_powers_length.
      - intros i Hi. unfold trap_bsrs. cbn [snd]. unfold kzg_powers, at_.
        rewrite (nth_indep _ m0 (fpow alpha 0 *m pr_g P)) by (now rewrite map_length, seq_length).
        now rewrite (map_nth (fun i => fpow alpha i *m pr_g P)), seq_nth by exact Hi.
      - reflexivity.
    Qed.

    Variables (com : pGT P) (x y e : K) (pr : pc_prover P) (Ch Zs : list K) (L : list (list K * K)).
    Notation a := (pcp_arg pr).
    Notation verify := (fun D fuel => bpc_verify P E D fuel r2 (key_of alpha beta) com (x, y) e).
    Hypothesis Ho : often_points Ch Zs k (2 * n - 2) L (pc_convinces verify s pr).

    Lemma run_facts cs z : In (cs, z) L -> length cs = k /\
      comb_g2 (trap_srs alpha beta n) (apr_keys a cs) -m key_poly (map finv (rev cs)) f1 z *m pr_h P =
        (beta -f z) *m comb_g2 (trap_srs alpha beta n) (apr_open a cs z) /\
      pcp_comm pr -m e *m pr_g P = (alpha -f y) *m row_g alpha beta m (row_of m (pcp_kzg pr cs z)).
    Proof using Ho HE.
      intros Hi. destruct Ho as [_ [_ [_ [HL _]]]]. destruct (HL cs z Hi) as [H1 [_ [_ [D [fuel [HD [Hc [Hz Hv]]]]]]]]. split; [exact H1|].
      cbv beta in Hv. apply bpc_verify_parts in Hv as [Ht Hk]. cbn [op_ip op_y_eval_comm op_kzg] in Ht, Hk. split.
      - apply (C54_multiexp_instance R P E r2 D fuel alpha beta) in Ht; auto.
        destruct Ht as [cs' [z' [G1 [_ [G2 [G3 _]]]]]]. cbn [ts_gipa gp_steps ts_final_ck ts_final_ck_proof] in *. rewrite rev_involutive in G1.
        assert (cs' = cs) as -> by (eapply round_challenges_fun; eauto). assert (z' = z) as -> by (eapply drawn_fun; eauto).
        rewrite !comb_g2_trap in G3. exact G3.
      - apply kzg_verify_iff in Hk. rewrite comb_kzg_row in Hk. exact Hk.
    Qed.

    Definition pc_found_ok (f : pc_found P) : Prop :=
      match f with
      | PcRelation rel => vanishes_at (m + 1) (2 * n) alpha beta rel
      | PcRows rows => exists l : list (row m), rows = map (row_list m) l /\ length l = n /\
          dot (key_row alpha beta m) ka l = com /\ veval m y (fst (mev l x)) = e /\ (snd (mev l x) : K) = f0
      | PcNothing => False
      end.

    Lemma pc_extract_ok : pc_found_ok (pc_extract n m x y e pr Ch k L).
    Proof using Hg Hh HE Hn Ho.
      unfold pc_extract. destruct (first_some _ L) as [rel|] eqn:Ef.
      - apply first_some_some in Ef as [[cs z] [Hi He]]. cbn [fst snd] in He. destruct (run_facts cs z Hi) as [_ [H1 _]].
        pose proof (g2_relation_ok (trap_srs alpha beta n) alpha beta n ltac:(lia) trap_ok Hh _ _ _ _ _ H1 He) as Hv.
        unfold tssm_relation, side_relation in He. destruct (nonzero _); [|discriminate]. injection He as <-.
        cbn [vanishes] in Hv. destruct Hv as [V1 [V2 [V3 V4]]]. cbn [pc_found_ok rel_poly].
        split; [apply in_second_nonzero; [exact V2|lia|exact V1]|]. split; [unfold in_second; rewrite map_length, seq_length; lia|].
        split; [intros r Hr; unfold in_second in Hr; apply in_map_iff in Hr as [j [<- _]]; cbn [length]; lia|].
        rewrite in_second_at by lia. exact V4.
      - pose proof (first_some_none _ _ Ef) as Hnone.
        pose (Q := fun cs => exists D fuel proof, digest16 D /\ round_challenges D fuel f0 (rounds_sent (apr_next a) [] cs) cs /\
          length ka = 2 ^ length (rounds_sent (apr_next a) [] cs) /\
          ts_gipa proof = mk_gipa_proof (rev (rounds_sent (apr_next a) [] cs)) (row_g alpha beta m (row_of m (fst (apr_final a cs))), snd (apr_final a cs)) /\
          ts_final_ck proof = folded_key ka (map finv cs) /\
          tssm_verify (afgho_g1 P E r2) (identity (pG1 P)) (multiexp_ip (pG1 P)) D fuel E (key_of alpha beta) (tt : unitmod K)
            ((com : mod_carrier (pGT P)), ([pcp_comm pr] : identity_output (pG1 P))) x proof = Ok true).
        assert (HQ : often Ch k (heavy L Ch k (2 * n - 2)) Q).
        { apply (often_heavy Ch Zs k _ L _ _ Ho). intros cs Hcs. apply filter_In in Hcs as [Hseq Hcs]. apply Nat.ltb_lt in Hcs.
          apply sequences_in in Hseq as [Hlk _]. destruct Ho as [_ [_ [HL [Hi _]]]].
          assert (Hk : exists kb, get_commitment_keys (trap_srs alpha beta n) = (ka, kb)).
          { destruct (get_commitment_keys (trap_srs alpha beta n)) as [ka' kb'] eqn:Ek. exists kb'. f_equal.
            transitivity (fst (get_commitment_keys (trap_srs alpha beta n))); [now rewrite Ek|].
            rewrite <- (trap_bsrs_ck alpha beta xd yd). unfold get_commitment_keys, trap_bsrs, trap_srs. cbn [fst h_beta_powers]. do 3 f_equal. lia. }
          destruct Hk as [kb Hk].
          assert (Hright : comb_g2 (trap_srs alpha beta n) (apr_keys a cs) = folded_key ka (map finv cs)).
          { destruct (folded_keys_one (trap_srs alpha beta n) alpha beta ka kb n cs ltac:(lia) trap_ok Hk) as [_ ->]; [now rewrite Hlk|].
            apply (tssm_right (trap_srs alpha beta n) alpha beta n trap_ok _ (apr_open a cs) cs (points_of L cs)); [now rewrite Hlk|now apply points_of_nodup|exact Hcs|].
            intros z Hz. apply points_of_in in Hz. exact (Hnone _ Hz). }
          destruct (points_of L cs) as [|z zs] eqn:Ep; [cbn in Hcs; lia|].
          assert (Hz : In (cs, z) L) by (apply points_of_in; rewrite Ep; now left).
          destruct (Hi cs z Hz) as [_ [_ [_ [D [fuel [HD [Hc [_ Hver]]]]]]]]. cbv beta in Hver. apply bpc_verify_parts in Hver as [Ht _].
          cbn [op_ip op_y_eval_comm] in Ht. exists D, fuel. eexists. split; [exact HD|]. split; [exact Hc|].
          split; [rewrite key_vec_length, sent_length; congruence|]. split; [|split; [|exact Ht]].
          - cbn [ts_gipa]. now rewrite comb_kzg_row.
          - cbn [ts_final_ck]. now rewrite comb_g2_trap. }
        destruct (rewind_ok (apr_next a) (fun cs => (row_of m (fst (apr_final a cs)), snd (apr_final a cs))) Ch k _ _ HQ) as [t [Ht [Hd Hp]]].
        unfold pc_tree. rewrite Ht.
        assert (HL : L <> []).
        { destruct HQ as [_ [_ [_ Hl]]]. intros ->. unfold heavy in Hl. cbn [points_of filter map length] in Hl.
          rewrite (proj2 (Nat.ltb_ge _ _)) in Hl by lia.
          replace (filter (fun _ => false) (sequences Ch k)) with (@nil (list K)) in Hl; [cbn [length] in Hl; lia|].
          symmetry. clear. induction (sequences Ch k); auto. }
        destruct L as [|run L'] eqn:EL; [contradiction|]. rewrite <- EL in *. clear HL.
        pose proof (extract1_sound (key_row alpha beta m) (row_ip alpha beta m) (key_row_bilinear alpha beta m) (row_ip_bilinear alpha beta m) grp_a
          (fun c : com3 (mod_carrier (pGT P)) (mod_carrier (fmod K)) (identity_output (pG1 P)) => at_ (com_vec c) 0)
          ka (powers n x) com (pcp_comm pr) t Hd) as HX.
        match type of HX with ?A -> _ => assert (HP : A) end.
        { intros st cs r b' Hin. destruct (Hp st cs _ Hin) as [-> [Hb HQcs]]. destruct HQcs as [D [fuel [proof [HD [Hr [Hl [Hgp [Hck Hv]]]]]]]].
          apply (C54_tssm_accepts_iff D fuel E HD) in Hv. destruct Hv as [cs' [z [v' [Hr' [_ [_ [_ [H1 [H2 [_ H3]]]]]]]]]].
          rewrite Hgp in Hr', H1, H2, H3. cbn [gp_steps] in Hr'. rewrite rev_involutive in Hr'.
          assert (cs' = cs) as -> by (eapply round_challenges_fun; eauto). rewrite Hck in H2.
          pose proof (path1_of (phi_g1 P) smul (afgho_g1 P E r2) (multiexp_ip (pG1 P)) (afgho_g1_law P E HE r2) (multiexp_ip_law _) D fuel ka com
            ([pcp_comm pr] : identity_output (pG1 P)) x _ _ cs _ v' eq_refl HD Hr Hl H2 H1 H3) as H4.
          rewrite key_vec_length in H4. cbn [fst] in H4. injection Hb as -> _. exact H4. }
        specialize (HX HP). clear HP. destruct (extract1 t) as [rows|w].
        + destruct HX as [L1 [_ [E1 E2]]]. rewrite key_vec_length in L1. rewrite (row_ip_dot alpha beta m n x rows L1) in E2.
          assert (Hrun : In (fst run, snd run) L) by (rewrite EL, <- surjective_pairing; apply in_eq).
          destruct (run_facts _ _ Hrun) as [_ [_ Hkz]]. rewrite <- E2 in Hkz. unfold row_g in Hkz. rewrite scale_sub, <- mscale_mul in Hkz.
          set (kz := row_of m (pcp_kzg pr (fst run) (snd run))) in *.
          assert (Hkz' : poly2_at (row_check m (mev rows x) kz y e) alpha beta = f0).
          { rewrite row_check_at.
            assert (H' : ((row_at m alpha beta (mev rows x) -f e) -f (alpha -f y) *f row_at m alpha beta kz) *m pr_g P = m0).
            { rewrite <- scale_sub, Hkz. apply msub_eq0. reflexivity. }
            apply mscale_integral in H' as [H'|H']; [exact H'|contradiction]. }
          destruct (nonzero_poly _) eqn:En; cbn [pc_found_ok].
          * split; [now apply nonzero_poly_true|]. split; [unfold row_check; cbn [length]; lia|]. split; [|exact Hkz'].
            intros r Hr. unfold row_check, check_poly in Hr. destruct Hr as [<-|[<-|[]]]; rewrite map_length, seq_length, ?vlist_length; cbn [length Nat.max]; lia.
          * exists rows. split; [reflexivity|]. split; [exact L1|]. split; [exact E1|].
            pose proof (nonzero_poly_false _ En) as H0. unfold row_check in H0. split.
            -- apply fsub_eq0. transitivity (poly_at (check_poly (vlist m (fst (mev rows x))) (vlist m (fst kz)) y e) y).
               ++ rewrite check_poly_at. unfold veval. ring.
               ++ apply poly_at_zero. intros c Hc. apply (H0 _ c (in_eq _ _) Hc).
            -- apply (check_linear (snd (mev rows x)) (snd kz) y). intros c Hc. exact (H0 _ c (in_cons _ _ _ (in_eq _ _)) Hc).
        + destruct HX as [L1 [Hnz E1]]. rewrite key_vec_length in L1. cbn [pc_found_ok].
          apply rows_poly_vanishes; [exact L1|exact Hnz|]. rewrite key_row_dot in E1 by exact L1.
          apply mscale_integral in E1 as [E1|E1]; [exact E1|]. now apply eh_nonzero in E1.
    Qed.

    (** the rows as a polynomial *)
    Definition rows_polynomial (rows : list (list K * K)) : bipoly K := map (fun r => from_coefficients (fst r)) rows.
    Definition rows_extra (rows : list (list K * K)) : pGT P :=
      big (length rows) (fun i => pr_e P (snd (nth i rows ([], f0)) *m srs_g_beta (fst s)) (at_ ka i)).

    Lemma at_ka i : i < n -> at_ ka i = fpow (beta *f beta) i *m pr_h P.
    Proof using.
      clear Hn. intros Hi. unfold at_, key_vec.
      rewrite (nth_indep _ m0 (fpow (beta *f beta *f f1) 0 *m pr_h P)) by (now rewrite map_length, seq_length).
      rewrite (map_nth (fun i => fpow (beta *f beta *f f1) i *m pr_h P)), seq_nth by exact Hi. cbn [Nat.add].
      now replace (beta *f beta *f f1) with (beta *f beta) by ring.
    Qed.
    Lemma rows_at (l : list (@row K m)) i : nth i (map (row_list m) l) ([], f0) = row_list m (nth i l m0) \/ length l <= i.
    Proof using.
      clear. destruct (le_lt_dec (length l) i) as [H|H]; [now right|left].
      rewrite (nth_indep _ _ (row_list m m0)) by (now rewrite map_length). apply map_nth.
    Qed.
    Lemma rows_committed (l : list (@row K m)) : length l = n ->
      exists com' coms, bpc_commit P E r2 s (rows_polynomial (map (row_list m) l)) = Ok (com', coms) /\
        dot (key_row alpha beta m) ka l = com' +m rows_extra (map (row_list m) l).
    Proof using HE.
      clear Hn. intros Hl. set (p := rows_polynomial (map (row_list m) l)).
      assert (Lp : length p = n) by (unfold p, rows_polynomial; now rewrite !map_length).
      set (coms := map (fun r => poly_evaluate r alpha *m pr_g P) p).
      exists (dot (phi_g1 P) ka coms), coms. split.
      - rewrite (bpc_commit_ok E HE r2 alpha beta xd yd p).
        + now rewrite resize_self by exact Lp.
        + lia.
        + unfold p, rows_polynomial. apply Forall_forall. intros r Hr. apply in_map_iff in Hr as [r' [<- Hr]]. apply in_map_iff in Hr as [r'' [<- _]].
          apply wf_row_stripped; [apply strip_stripped|lia|]. etransitivity; [apply strip_length|]. unfold row_list. cbn [fst]. now rewrite vlist_length.
      - assert (Lc : length coms = n) by (unfold coms; now rewrite map_length).
        rewrite !dot_big by (rewrite key_vec_length; auto). unfold rows_extra. rewrite map_length, Hl, key_vec_length.
        rewrite <- big_add. apply big_ext. intros i Hi. unfold key_row, phi_g1. rewrite <- e_add_l. f_equal.
        destruct (rows_at l i) as [->|?]; [|lia]. change (at_ l i) with (nth i l m0). unfold row_list. cbn [snd].
        assert (Hc : at_ coms i = veval m alpha (fst (nth i l m0)) *m pr_g P).
        { unfold at_, coms. rewrite (nth_indep _ m0 (poly_evaluate [] alpha *m pr_g P)) by (rewrite map_length; lia).
          rewrite (map_nth (fun r => poly_evaluate r alpha *m pr_g P)). f_equal. unfold p, rows_polynomial. rewrite map_map.
          rewrite (nth_indep _ [] ((fun r : @row K m => from_coefficients (fst (row_list m r))) m0)) by (rewrite map_length; lia).
          rewrite (map_nth (fun r : @row K m => from_coefficients (fst (row_list m r)))). unfold from_coefficients. rewrite ev_strip, ev_poly_at. reflexivity. }
        rewrite Hc. unfold row_g, row_at. cbn [fst srs_g_beta trap_bsrs]. now rewrite <- mscale_mul, <- mscale_add_l.
    Qed.

    Lemma rows_evaluated (l : list (@row K m)) : bipoly_evaluate (rows_polynomial (map (row_list m) l)) (x, y) = veval m y (fst (mev l x)).
    Proof using.
      clear. rewrite bipoly_evaluate_rows, mev_fst. unfold rows_polynomial. rewrite !map_length. apply fbig_ext. intros i Hi.
      rewrite map_map. rewrite (nth_indep _ [] ((fun r : @row K m => from_coefficients (fst (row_list m r))) m0)) by (rewrite map_length; lia).
      rewrite (map_nth (fun r : @row K m => from_coefficients (fst (row_list m r)))). unfold from_coefficients. rewrite ev_strip, ev_poly_at.
      unfold veval, row_list. cbn [fst]. ring.
    Qed.
    Lemma rows_extra_sum (l : list (@row K m)) : length l = n ->
      fbig n (fun i => snd (nth i (map (row_list m) l) ([], f0)) *f fpow x i) = (snd (mev l x) : K).
    Proof using.
      clear. intros Hl. rewrite mev_snd, Hl. apply fbig_ext. intros i Hi. destruct (rows_at l i) as [->|?]; [reflexivity|lia].
    Qed.

    Lemma lists_differ {M : module K} (l l' : list M) N : length l = N -> length l' = N -> l <> l' -> exists i, i < N /\ nth i l m0 <> nth i l' m0.
    Proof using.
      clear. revert l' N. induction l as [|r l IH]; intros [|r' l'] N H1 H2 Hne; cbn [length] in *; try lia; [contradiction|].
      destruct (meqb r r') eqn:Er.
      - apply meqb_spec in Er as ->. destruct (IH l' (N - 1)) as [i [Hi Hd]]; [lia|lia|intros ->; now apply Hne|]. exists (S i). split; [lia|exact Hd].
      - exists 0. split; [lia|]. cbn [nth]. intros ->. rewrite (proj2 (meqb_spec _ _ r' r') eq_refl) in Er. discriminate.
    Qed.
    (** two lists of rows for one commitment *)
    Lemma rows_bind (l l' : list (@row K m)) : length l = n -> length l' = n -> l <> l' ->
      dot (key_row alpha beta m) ka l = dot (key_row alpha beta m) ka l' ->
      vanishes_at (m + 1) (2 * n) alpha beta (rows_differ m (map (row_list m) l) (map (row_list m) l')).
    Proof using Hg.
      clear Hn HE. intros H1 H2 Hne Hd. unfold rows_differ.
      set (w := zipw (fun r r' => row_of m r +m mopp (row_of m r')) (map (row_list m) l) (map (row_list m) l')).
      assert (Lw : length w = n) by (unfold w; rewrite zipw_length, !map_length; lia).
      assert (Hw : forall i, i < n -> nth i w m0 = nth i l m0 +m mopp (nth i l' m0)).
      { intros i Hi. unfold w. rewrite (zipw_nth _ _ _ i (row_list m m0) (row_list m m0)) by (rewrite map_length; lia).
        now rewrite !map_nth, !row_of_list. }
      apply rows_poly_vanishes; [exact Lw| |].
      - assert (Hex : exists i, i < n /\ nth i l m0 <> nth i l' m0).
        { apply lists_differ; assumption. }
        destruct Hex as [i [Hi Hd']]. exists (nth i w m0). split; [apply nth_In; lia|]. rewrite (Hw i Hi). intros E0. apply Hd'. now apply msub_eq0.
      - rewrite !key_row_dot in Hd by assumption. apply msub_eq0 in Hd. rewrite scale_sub in Hd.
        apply mscale_integral in Hd as [Hd|Hd]; [|now apply eh_nonzero in Hd]. etransitivity; [|exact Hd].
        transitivity (fbig n (fun i => row_at m alpha beta (nth i l m0) *f fpow (beta *f beta) i +f
          fopp f1 *f (row_at m alpha beta (nth i l' m0) *f fpow (beta *f beta) i))).
        + apply fbig_ext. intros i Hi. rewrite (Hw i Hi). rewrite row_at_add.
          assert (Ho' : mopp (nth i l' m0) = fopp f1 *m nth i l' m0) by apply mopp_scale. rewrite Ho', row_at_scale. ring.
        + rewrite fbig_add, fbig_scale. ring.
    Qed.
  End Main.

  (** The extracted rows: p the polynomial, b the coefficients of g^beta. *)
  Definition rows_open (s : srs P * list (pG1 P)) (ka : list (pG2 P)) (com : pGT P) (x : K) (rows : list (list K * K)) (com' : pGT P) : Prop :=
    length rows = length ka /\ (forall r, In r rows -> length (fst r) = length (snd s)) /\
    com = com' +m big (length ka) (fun i => pr_e P (snd (nth i rows ([], f0)) *m srs_g_beta (fst s)) (at_ ka i)) /\
    fbig (length ka) (fun i => snd (nth i rows ([], f0)) *f fpow x i) = f0.

  Theorem C98_bivariate_knowledge (rng : R) xd yd s rng' v ka com x y e pr Ch Zs k L :
    bpc_setup P rand rng xd yd = Ok (s, rng') -> get_verifier_key (fst s) = Ok v -> fst (get_commitment_keys (fst s)) = ka -> length ka = 2 ^ k ->
    often_points Ch Zs k (2 * length ka - 2) L (pc_convinces (fun D fuel => bpc_verify P E D fuel r2 v com (x, y) e) s pr) ->
    match pc_extract (length ka) (length (snd s)) x y e pr Ch k L with
    | PcRelation rel => vanishes_at (length (snd s) + 1) (2 * length ka) (fst (rand rng)) (fst (rand (snd (rand rng)))) rel
    | PcRows rows =>
      let p := map (fun r => from_coefficients (fst r)) rows in
      exists com' coms, bpc_commit P E r2 s p = Ok (com', coms) /\ rows_open s ka com x rows com' /\ bipoly_evaluate p (x, y) = e
    | PcNothing => False
    end.
  Proof using Hg Hh HE.
    intros Hs Hv Hk. destruct (bpc_setup_ok (P := P) rand rng xd yd) as [rng2 Hs2]. rewrite Hs in Hs2. injection Hs2 as -> ->.
    rewrite trap_bsrs_vkey in Hv. injection Hv as <-. rewrite trap_bsrs_ck in Hk. subst ka.
    set (alpha := fst (rand rng)). set (beta := fst (rand (snd (rand rng)))). rewrite !key_vec_length. intros Hn Ho.
    assert (Lm : length (snd (trap_bsrs alpha beta xd yd)) = yd + 1) by (unfold trap_bsrs; cbn [snd]; apply kzg_powers_length).
    rewrite Lm in *. pose proof (pc_extract_ok alpha beta xd yd k Hn com x y e pr Ch Zs L Ho) as HX.
    destruct (pc_extract _ _ x y e pr Ch k L) as [rel|rows|]; cbn [pc_found_ok] in HX; [exact HX| |exact HX].
    destruct HX as [l [-> [Hl [Hc [He Hb]]]]]. destruct (rows_committed alpha beta xd yd l Hl) as [com' [coms [H1 H2]]].
    exists com', coms. split; [exact H1|]. split.
    - split; [now rewrite map_length, key_vec_length|]. split; [|split].
      + intros r Hr. apply in_map_iff in Hr as [r' [<- _]]. unfold row_list. cbn [fst]. now rewrite vlist_length, Lm.
      + rewrite <- Hc, H2. f_equal. unfold rows_extra. rewrite map_length, key_vec_length. now rewrite Hl.
      + rewrite key_vec_length. etransitivity; [now apply (rows_extra_sum xd yd x l)|exact Hb].
    - etransitivity; [apply (rows_evaluated yd x y l)|exact He].
  Qed.

  Theorem C98_univariate_knowledge (rng : R) d s rng' v ka com z e pr Ch Zs k L :
    upc_setup P rand rng d = Ok (s, rng') -> get_verifier_key (fst s) = Ok v -> fst (get_commitment_keys (fst s)) = ka -> length ka = 2 ^ k ->
    often_points Ch Zs k (2 * length ka - 2) L (pc_convinces (fun D fuel => upc_verify P E D fuel r2 v d com z e) s pr) ->
    match pc_extract (length ka) (length (snd s)) (fpow z (length (snd s))) z e pr Ch k L with
    | PcRelation rel => vanishes_at (length (snd s) + 1) (2 * length ka) (fst (rand rng)) (fst (rand (snd (rand rng)))) rel
    | PcRows rows =>
      let p := concat (map fst rows) in
      exists com' coms, upc_commit P E r2 s p = Ok (com', coms) /\ rows_open s ka com (fpow z (length (snd s))) rows com' /\ poly_evaluate p z = e
    | PcNothing => False
    end.
  Proof using Hg Hh HE.
    intros Hs Hv Hk Hn Ho. pose proof Hs as Hs'. unfold upc_setup in Hs. apply rbind_ok in Hs as [[xd yd] [Hdeg Hs]].
    assert (Hy : length (snd s) = yd + 1).
    { destruct (bpc_setup_ok (P := P) rand rng xd yd) as [rng2 Hs2]. rewrite Hs in Hs2. injection Hs2 as -> _. unfold trap_bsrs. cbn [snd]. apply kzg_powers_length. }
    assert (Ho' : often_points Ch Zs k (2 * length ka - 2) L
      (pc_convinces (fun D fuel => bpc_verify P E D fuel r2 v com (fpow z (length (snd s)), z) e) s pr)).
    { destruct Ho as [A1 [A2 [A3 [A4 A5]]]]. do 3 (split; [assumption|]). split; [|exact A5]. intros cs z0 Hi.
      destruct (A4 cs z0 Hi) as [B1 [B2 [B3 B4]]]. do 3 (split; [assumption|]). destruct B4 as [D [fuel [C1 [C2 [C3 C4]]]]]. exists D, fuel.
      do 3 (split; [assumption|]). unfold upc_verify in C4. rewrite Hdeg in C4. cbn [rbind] in C4. now rewrite Hy. }
    pose proof (C98_bivariate_knowledge rng xd yd s rng' v ka com (fpow z (length (snd s))) z e pr Ch Zs k L Hs Hv Hk Hn Ho') as HX.
    destruct (pc_extract _ _ _ z e pr Ch k L) as [rel|rows|]; [exact HX| |exact HX]. destruct HX as [com' [coms [H1 [H2 H3]]]].
    exists com', coms. split; [|split; [exact H2|]].
    - rewrite <- H1. destruct H2 as [G1 [G2 _]]. destruct (bpc_setup_ok (P := P) rand rng xd yd) as [rng2 Hs2]. rewrite Hs in Hs2. injection Hs2 as -> _.
      rewrite trap_bsrs_ck in Hk. subst ka. rewrite key_vec_length in G1. unfold upc_commit. rewrite parse_degrees_trap. cbn [rbind].
      unfold bivariate_form. assert (HF : Forall (fun r => length r = yd + 1) (map fst rows)).
      { apply Forall_forall. intros r Hr. apply in_map_iff in Hr as [r' [<- Hr]]. rewrite <- Hy. now apply G2. }
      rewrite chain_take_resize, resize_self by (apply concat_length; split; [rewrite map_length; exact G1|exact HF]).
      replace (xd + 1) with (length (map (@fst (list K) K) rows)) by (rewrite map_length; exact G1).
      rewrite (take_rows_concat (yd + 1) (map fst rows) HF). cbn [rbind]. now rewrite map_map.
    - rewrite <- H3. destruct H2 as [G1 [G2 _]].
      assert (HF : Forall (fun r => length r = length (snd s)) (map fst rows)).
      { apply Forall_forall. intros r Hr. apply in_map_iff in Hr as [r' [<- Hr]]. now apply G2. }
      rewrite (ev_concat _ _ z HF), bipoly_evaluate_rows, !map_length. apply fbig_ext. intros i Hi. f_equal.
      rewrite (nth_indep (map (fun r : list K * K => from_coefficients (fst r)) rows) [] ((fun r : list K * K => from_coefficients (fst r)) ([], f0))) by (rewrite map_length; lia).
      rewrite (map_nth (fun r : list K * K => from_coefficients (fst r))). unfold from_coefficients. rewrite ev_strip. f_equal.
      rewrite (nth_indep _ [] (fst (@nil K, @f0 K))) by (rewrite map_length; lia). now rewrite map_nth.
  Qed.

  (** Two values for one point: always a relation. *)
  Theorem C98_bivariate_binding (rng : R) xd yd s rng' v ka com x y e1 e2 pr1 pr2 Ch1 Zs1 L1 Ch2 Zs2 L2 k :
    bpc_setup P rand rng xd yd = Ok (s, rng') -> get_verifier_key (fst s) = Ok v -> fst (get_commitment_keys (fst s)) = ka -> length ka = 2 ^ k ->
    often_points Ch1 Zs1 k (2 * length ka - 2) L1 (pc_convinces (fun D fuel => bpc_verify P E D fuel r2 v com (x, y) e1) s pr1) ->
    often_points Ch2 Zs2 k (2 * length ka - 2) L2 (pc_convinces (fun D fuel => bpc_verify P E D fuel r2 v com (x, y) e2) s pr2) ->
    e1 <> e2 ->
    match pc_bind (length (snd s)) (pc_extract (length ka) (length (snd s)) x y e1 pr1 Ch1 k L1) (pc_extract (length ka) (length (snd s)) x y e2 pr2 Ch2 k L2) with
    | Some rel => vanishes_at (length (snd s) + 1) (2 * length ka) (fst (rand rng)) (fst (rand (snd (rand rng)))) rel
    | None => False
    end.
  Proof using Hg Hh HE.
    intros Hs Hv Hk. destruct (bpc_setup_ok (P := P) rand rng xd yd) as [rng2 Hs2]. rewrite Hs in Hs2. injection Hs2 as -> ->.
    rewrite trap_bsrs_vkey in Hv. injection Hv as <-. rewrite trap_bsrs_ck in Hk. subst ka.
    set (alpha := fst (rand rng)). set (beta := fst (rand (snd (rand rng)))). rewrite !key_vec_length. intros Hn Ho1 Ho2 Hne.
    assert (Lm : length (snd (trap_bsrs alpha beta xd yd)) = yd + 1) by (unfold trap_bsrs; cbn [snd]; apply kzg_powers_length).
    rewrite Lm in *. pose proof (pc_extract_ok alpha beta xd yd k Hn com x y e1 pr1 Ch1 Zs1 L1 Ho1) as X1.
    pose proof (pc_extract_ok alpha beta xd yd k Hn com x y e2 pr2 Ch2 Zs2 L2 Ho2) as X2.
    destruct (pc_extract _ _ x y e1 pr1 Ch1 k L1) as [rel1|rows1|]; cbn [pc_found_ok] in X1; cbn [pc_bind]; [exact X1| |contradiction].
    destruct (pc_extract _ _ x y e2 pr2 Ch2 k L2) as [rel2|rows2|]; cbn [pc_found_ok] in X2; cbn [pc_bind]; [exact X2| |contradiction].
    destruct X1 as [l1 [-> [A1 [A2 [A3 _]]]]], X2 as [l2 [-> [B1 [B2 [B3 _]]]]].
    apply rows_bind; [exact A1|exact B1| |congruence]. intros ->. apply Hne. congruence.
  Qed.

  Theorem C98_univariate_binding (rng : R) d s rng' v ka com z e1 e2 pr1 pr2 Ch1 Zs1 L1 Ch2 Zs2 L2 k :
    upc_setup P rand rng d = Ok (s, rng') -> get_verifier_key (fst s) = Ok v -> fst (get_commitment_keys (fst s)) = ka -> length ka = 2 ^ k ->
    often_points Ch1 Zs1 k (2 * length ka - 2) L1 (pc_convinces (fun D fuel => upc_verify P E D fuel r2 v d com z e1) s pr1) ->
    often_points Ch2 Zs2 k (2 * length ka - 2) L2 (pc_convinces (fun D fuel => upc_verify P E D fuel r2 v d com z e2) s pr2) ->
    e1 <> e2 ->
    let x := fpow z (length (snd s)) in
    match pc_bind (length (snd s)) (pc_extract (length ka) (length (snd s)) x z e1 pr1 Ch1 k L1) (pc_extract (length ka) (length (snd s)) x z e2 pr2 Ch2 k L2) with
    | Some rel => vanishes_at (length (snd s) + 1) (2 * length ka) (fst (rand rng)) (fst (rand (snd (rand rng)))) rel
    | None => False
    end.
  Proof using Hg Hh HE.
    intros Hs Hv Hk Hn Ho1 Ho2 Hne x. unfold upc_setup in Hs. apply rbind_ok in Hs as [[xd yd] [Hdeg Hs]].
    assert (Hy : length (snd s) = yd + 1).
    { destruct (bpc_setup_ok (P := P) rand rng xd yd) as [rng2 Hs2]. rewrite Hs in Hs2. injection Hs2 as -> _. unfold trap_bsrs. cbn [snd]. apply kzg_powers_length. }
    assert (HT : forall e pr Ch Zs L, often_points Ch Zs k (2 * length ka - 2) L (pc_convinces (fun D fuel => upc_verify P E D fuel r2 v d com z e) s pr) ->
      often_points Ch Zs k (2 * length ka - 2) L (pc_convinces (fun D fuel => bpc_verify P E D fuel r2 v com (x, z) e) s pr)).
    { intros e pr Ch Zs L [A1 [A2 [A3 [A4 A5]]]]. do 3 (split; [assumption|]). split; [|exact A5]. intros cs z0 Hi.
      destruct (A4 cs z0 Hi) as [B1 [B2 [B3 B4]]]. do 3 (split; [assumption|]). destruct B4 as [D [fuel [C1 [C2 [C3 C4]]]]]. exists D, fuel.
      do 3 (split; [assumption|]). unfold upc_verify in C4. rewrite Hdeg in C4. cbn [rbind] in C4. unfold x. now rewrite Hy. }
    exact (C98_bivariate_binding rng xd yd s rng' v ka com x z e1 e2 pr1 pr2 Ch1 Zs1 L1 Ch2 Zs2 L2 k Hs Hv Hk Hn (HT _ _ _ _ _ Ho1) (HT _ _ _ _ _ Ho2) Hne).
  Qed.

  (** Few trapdoors satisfy a given relation. *)
  Theorem C98_relation_rare dx dy rel (As Bs : list K) (L : list (K * K)) :
    NoDup As -> NoDup Bs -> NoDup L -> (forall a b, In (a, b) L -> In a As /\ In b Bs /\ vanishes_at dx dy a b rel) ->
    length L <= (dx - 1) * length Bs + length As * (dy - 1).
  Proof using.
    clear. intros HA HB HL H. destruct L as [|[a b] L]; [apply Nat.le_0_l|]. destruct (H a b (in_eq _ _)) as [_ [_ [V1 [V2 [V3 _]]]]].
    apply (vanishes_rarely dx dy rel As Bs); auto. intros a' b' Hi. destruct (H a' b' Hi) as [H1 [H2 [_ [_ [_ H3]]]]]. auto.
  Qed.
End C98.
Print Assumptions C98_bivariate_knowledge.
Print Assumptions C98_univariate_knowledge.
Print Assumptions C98_bivariate_binding.
Print Assumptions C98_univariate_binding.
Print Assumptions C98_relation_rare.

(** ** Examples *)
(** The setting of C77: alpha = 5, beta = 6 and the rows 1 + 2 Y and 3 + 4 Y, committed to by 839 and opened at x = 9, y = 3, where
    the value is 142; as the univariate polynomial 1 + 2 Z + 3 Z^2 + 4 Z^3 at 3. *)
Section Check98.
  Context (D : bytes -> bytes) (fuel : nat) (HD : digest16 D) (verify : (bytes -> bytes) -> nat -> opening_proof ZPair -> res bool)
    (s : srs ZPair * list ZM) (pr : pc_prover ZPair).
  Definition pc_run_check (c z : ZP) : bool :=
    let a := pcp_arg pr in
    let ck := comb_g2 (fst s) (apr_keys a [c]) in
    ok_fst (@feqb ZP) (gipa_challenge (K := ZP) (OA := mod_carrier ZM) (OB := mod_carrier (fmod ZP)) (OT := identity_output ZM) D fuel 0 (f0 : ZP)
      (fst (apr_next a [])) (snd (apr_next a []))) c &&
    ok_is (@feqb ZP) (rand_challenge (K := ZP) D fuel 0 (fser (c : ZP) ++ mser ck)) z &&
    ok_is Bool.eqb (verify D fuel (mk_opening (P := ZPair)
      (mk_tssm_proof (P := ZPair) (mk_gipa_proof (K := ZP) (MA := ZM) (MB := fmod ZP) [apr_next a []]
        (comb_kzg s (fst (apr_final a [c])), snd (apr_final a [c]))) ck (comb_g2 (fst s) (apr_open a [c] z)))
      (pcp_comm pr) (comb_kzg s (pcp_kzg pr [c] z)))) true.
  Lemma pc_run_check_ok c z : pc_run_check c z = true -> pc_convinces (P := ZPair) verify s pr [c] z.
  Proof using HD.
    intros H. unfold pc_run_check in H. cbv zeta in H. apply andb_true_iff in H as [H H3]. apply andb_true_iff in H as [H1 H2].
    exists D, fuel. split; [exact HD|]. split; [exact (first_round _ _ HD _ _ H1)|]. split; [exact (first_draw _ _ _ _ H2)|].
    apply ok_is_true in H3; [exact H3|apply eqb_prop].
  Qed.
End Check98.
(** a prover from the coefficients of two rows, the commitment to p(x, Y) and the KZG opening *)
Definition ex98_prover (r0 r1 : comb ZPair) (y_comm : ZM) (kzg : comb ZPair) : pc_prover ZPair :=
  mk_pc_prover (P := ZPair) y_comm
    (mk_a_prover (P := ZPair)
      (fun _ => (((comb_kzg ex77_s r1 : ZM), zq 0, [(comb_kzg ex77_s r1 : ZM)]),
                 (zmul (comb_kzg ex77_s r0) (zq 36), zq 0, [zmul (comb_kzg ex77_s r0) (zq 9)])))
      (fun cs => ((zipw zadd (fst r0) (map (zmul (the_c cs)) (fst r1)), zadd (snd r0) (zmul (the_c cs) (snd r1))),
                  zadd (zq 1) (zmul (finv (f := ZP) (the_c cs)) (zq 9))))
      (fun cs => ex97_key (finv (f := ZP) (the_c cs))) (fun cs z => ex97_quot (finv (f := ZP) (the_c cs)) z))
    (fun _ _ => kzg).
(** honest: p(9, Y) = 28 + 38 Y, quotient 38 *)
Definition ex98_honest := ex98_prover (zl [1; 2]%Z, zq 0) (zl [3; 4]%Z, zq 0) (zq 218) ([zq 38; zq 0], zq 0).
(** with alpha = 5 known: the value 7 with the constant (218 - 7) / (5 - 3) *)
Definition ex98_false := ex98_prover (zl [1; 2]%Z, zq 0) (zl [3; 4]%Z, zq 0) (zq 218) ([zmul (zq 211) (finv (zq 2 : ZP)); zq 0], zq 0).
(** rows with the parts - 9 and 1 of g^beta, which cancel at x = 9; the commitment is 839 - 54 + 6 * 36 *)
Definition ex98_beta := ex98_prover (zl [1; 2]%Z, zq (-9)) (zl [3; 4]%Z, zq 1) (zq 218) ([zq 38; zq 0], zq 0).
Definition ex98_biverify com D fuel e proof := bpc_verify ZPair ex_env1 D fuel ex_rand ex77_v (zq com) (zq 9, zq 3) e proof.
Definition ex98_verify com D fuel e proof := upc_verify ZPair ex_env1 D fuel ex_rand ex77_v 3 (zq com) (zq 3) e proof.

Example C98_example_setup : upc_setup ZPair ex_scalars 5%Z 3 = Ok (ex77_s, 7%Z) /\ bpc_setup ZPair ex_scalars 5%Z 1 1 = Ok (ex77_s, 7%Z) /\
  get_verifier_key (fst ex77_s) = Ok ex77_v /\ fst (get_commitment_keys (fst ex77_s)) = zl [1; 36]%Z /\
  ex_scalars 5%Z = (zq 5 : ZP, 6%Z) /\ ex_scalars 6%Z = (zq 6 : ZP, 7%Z).
Proof.
  split; [|repeat (split; [reflexivity|]); reflexivity]. unfold upc_setup.
  assert (H : bivariate_degrees 32 16 3 = Ok (1, 1)) by (vm_compute; reflexivity). rewrite H. reflexivity.
Qed.
Lemma ex98_often verify pr : (forallb (fun v => forallb (fun z => pc_run_check (dig v z) 1 verify ex77_s pr (chal v) (f_ofN z)) ex97_zs) ex97_vs) = true ->
  often_points (P := ZPair) ex97_Ch ex97_Zs 1 2 ex97_L (pc_convinces (P := ZPair) verify ex77_s pr).
Proof.
  intros Hall. apply ex97_often. intros v z Hv Hz.
  pose proof (all_pairs (fun v z => pc_run_check (dig v z) 1 verify ex77_s pr (chal v) (f_ofN z)) _ _ Hall v z Hv Hz) as H.
  cbv beta in H. exact (pc_run_check_ok _ _ (dig16 v z) _ _ _ _ _ H).
Qed.
Example C98_example_often :
  often_points (P := ZPair) ex97_Ch ex97_Zs 1 2 ex97_L (pc_convinces (P := ZPair) (fun D fuel => ex98_biverify 839 D fuel (zq 142)) ex77_s ex98_honest) /\
  often_points (P := ZPair) ex97_Ch ex97_Zs 1 2 ex97_L (pc_convinces (P := ZPair) (fun D fuel => ex98_verify 839 D fuel (zq 142)) ex77_s ex98_honest) /\
  often_points (P := ZPair) ex97_Ch ex97_Zs 1 2 ex97_L (pc_convinces (P := ZPair) (fun D fuel => ex98_biverify 839 D fuel (zq 7)) ex77_s ex98_false) /\
  often_points (P := ZPair) ex97_Ch ex97_Zs 1 2 ex97_L (pc_convinces (P := ZPair) (fun D fuel => ex98_verify 839 D fuel (zq 7)) ex77_s ex98_false) /\
  often_points (P := ZPair) ex97_Ch ex97_Zs 1 2 ex97_L (pc_convinces (P := ZPair) (fun D fuel => ex98_biverify 1001 D fuel (zq 142)) ex77_s ex98_beta).
Proof. do 4 (split; [apply ex98_often; vm_compute; reflexivity|]). apply ex98_often; vm_compute; reflexivity. Qed.
(** The rows are found from the honest prover; from the false one a polynomial that vanishes at (5, 6) and, alone or with the honest
    one, breaks binding; and from the third rows with their parts of g^beta. *)
Definition zl_eqb (a b : list ZP) : bool := Nat.eqb (length a) (length b) && forallb (fun xy => zp_eqb (fst xy) (snd xy)) (combine a b).
Definition rel_ok (rel : list (list ZP)) : bool :=
  nonzero_poly (P := ZPair) rel && zp_eqb (poly2_at (K := ZP) rel (zq 5) (zq 6)) (zq 0) && Nat.leb (length rel) 4 && forallb (fun r => Nat.leb (length r) 3) rel.
Example C98_example_extracted :
  match pc_extract (P := ZPair) 2 2 (zq 9) (zq 3) (zq 142) ex98_honest ex97_Ch 1 ex97_L with
  | PcRows [(a, b); (c, d)] => zl_eqb a (zl [1; 2]%Z) && zp_eqb b (zq 0) && zl_eqb c (zl [3; 4]%Z) && zp_eqb d (zq 0) | _ => false end = true /\
  match pc_extract (P := ZPair) 2 2 (zq 9) (zq 3) (zq 7) ex98_false ex97_Ch 1 ex97_L with
  | PcRelation rel => rel_ok rel | _ => false end = true /\
  match pc_bind 2 (pc_extract (P := ZPair) 2 2 (zq 9) (zq 3) (zq 142) ex98_honest ex97_Ch 1 ex97_L)
    (pc_extract (P := ZPair) 2 2 (zq 9) (zq 3) (zq 7) ex98_false ex97_Ch 1 ex97_L) with
  | Some rel => rel_ok rel | None => false end = true /\
  match pc_extract (P := ZPair) 2 2 (zq 9) (zq 3) (zq 142) ex98_beta ex97_Ch 1 ex97_L with
  | PcRows [(a, b); (c, d)] => zl_eqb a (zl [1; 2]%Z) && zp_eqb b (zq (-9)) && zl_eqb c (zl [3; 4]%Z) && zp_eqb d (zq 1) | _ => false end = true.
Proof. repeat split; vm_compute; reflexivity. Qed.
(** X - 5 has alpha = 5 as a root: three of the nine pairs, with the bound 1 * 3 + 3 * 0 *)
Add Field ZPf98 : (f_theory ZP).
Example C98_example_rare : forall b : ZP, vanishes_at (K := ZP) 2 1 (zq 5) b [[zq (-5); zq 1]].
Proof.
  intros b. split; [exists [zq (-5); zq 1], (zq 1); split; [left; reflexivity|split; [right; left; reflexivity|intros H; vm_compute in H; discriminate]]|].
  split; [apply le_n|]. split; [intros r [<-|[]]; apply le_n|]. unfold poly2_at. cbn [length fbig fpow nth].
  replace (poly_at (K := ZP) [zq (-5); zq 1] (zq 5)) with (f0 : ZP) by (apply zp_eqb_spec; vm_compute; reflexivity).
  ring.
Qed.

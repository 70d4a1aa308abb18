(** C80: a univariate opening proves the value of exactly the coefficients that fit the key, whatever the degree
    given to setup and whatever the length of the polynomial. *)
Require Import List Arith NArith ZArith Lia Bool Field.
Import ListNotations.
Require Import Verif.Outcome Verif.Algebra Verif.Zp Verif.Rust Verif.InnerProducts Verif.Commitments
  Verif.Gipa Verif.Poly Verif.Tipa Verif.Ssm Verif.Floats Verif.PolyCommit Verif.Transparent Verif.Spec Verif.ListFacts
  Verif.RustFacts Verif.InnerProductFacts Verif.CommitFacts Verif.GipaFacts Verif.GipaComplete Verif.GipaTop Verif.GipaAttack
  Verif.SerFacts Verif.PolyFacts Verif.KeyFacts Verif.TipaFacts Verif.SsmFacts Verif.FloatFacts Verif.PcFacts Verif.PcDegrees
  Verif.UpcFacts Verif.TransparentFacts Verif.VerifyFacts Verif.SpecialFacts
  Verif.PropsBase Verif.PropsGipa Verif.PropsTipa Verif.PropsSsm Verif.PropsPoly Verif.PropsVerify Verif.Forger Verif.PcAttack Verif.PropsPcVerify
  Verif.PropsDegrees.

(** X^d *)
Definition monomial {K : field} (d : nat) : list K := repeat f0 d ++ [f1].

Section Monomial.
  Context {K : field}.
  Add Field KfC80m : (f_theory K).

  Lemma monomial_fat d i : fat (K := K) (monomial d) i = if i =? d then f1 else f0.
  Proof.
    unfold fat, monomial. destruct (Nat.eqb_spec i d) as [->|Hi].
    - rewrite app_nth2; rewrite repeat_length; [|lia]. now rewrite Nat.sub_diag.
    - destruct (Nat.lt_ge_cases i d).
      + rewrite app_nth1 by (now rewrite repeat_length). apply nth_repeat.
      + rewrite app_nth2; rewrite repeat_length; [|lia]. destruct (i - d) as [|[|]] eqn:E; [lia| |]; reflexivity.
  Qed.

  Lemma monomial_degree d : degree_below (K := K) (d + 1) (monomial d).
  Proof.
    split; [lia|]. right. rewrite monomial_fat. unfold monomial. rewrite app_length, repeat_length. cbn [length].
    replace (d + 1 - 1) with d by lia. rewrite Nat.eqb_refl. split; [lia|]. apply (F_1_neq_0 (f_theory K)).
  Qed.

  Lemma monomial_at d (z : K) : poly_at (monomial d) z = fpow z d.
  Proof.
    rewrite <- ev_poly_at. unfold monomial. rewrite ev_app, ev_repeat0, repeat_length, ev_poly_at.
    unfold poly_at. cbn. ring.
  Qed.

  Lemma monomial_cut_at d c (z : K) : c <= d -> poly_at (firstn c (monomial d)) z = f0.
  Proof.
    intros Hc. rewrite <- ev_poly_at. unfold monomial. rewrite firstn_app, repeat_length.
    replace (c - d) with 0 by lia. cbn [firstn]. rewrite app_nil_r.
    replace (firstn c (repeat f0 d)) with (repeat (f0 : K) c); [apply ev_repeat0|].
    replace d with (c + (d - c)) by lia. rewrite repeat_app, firstn_app, repeat_length, Nat.sub_diag.
    cbn [firstn]. rewrite app_nil_r, firstn_all2; [reflexivity|]. now rewrite repeat_length.
  Qed.

  Lemma fpow_nonzero (z : K) n : z <> f0 -> fpow z n <> f0.
  Proof.
    intros Hz. induction n as [|n IH]; cbn [fpow]; [apply (F_1_neq_0 (f_theory K))|].
    intros H. apply IH. transitivity (finv z *f (z *f fpow z n)); [field; auto|]. rewrite H. ring.
  Qed.
End Monomial.

Section C80.
  Context {R : Type} {P : pairing}.
  Notation K := (pK P).
  Add Field KfC80 : (f_theory (pK P)).
  Variables (E E' : penv) (HE : 1 <= threads E) (HE' : 1 <= threads E').
  Variables (D : bytes -> bytes) (fuel : nat) (HD : digest16 D).
  Variables (rand : sampler R (pK P)) (rand_g1 rand_g1' : sampler R (pG1 P)) (rand_g2 rand_g2' : sampler R (pG2 P)).

  Lemma upc_opening_value (rng : R) d : 1 <= d -> (Z.of_nat d + 1 < 2 ^ 64)%Z ->
    exists s rng' v cap, upc_setup P rand rng d = Ok (s, rng') /\ get_verifier_key (fst s) = Ok v /\
      (d + 1 <= cap <-> ~ rounding_loses (Z.of_nat d)) /\
      forall p z, exists com coms, upc_commit P E rand_g2 s p = Ok (com, coms) /\
        (upc_open P E D fuel rand_g2 s p coms z = Loop \/
         exists proof, upc_open P E D fuel rand_g2 s p coms z = Ok proof /\
           upc_verify P E' D fuel rand_g2' v d com z (poly_at (firstn cap p) z) proof = Ok true /\
           forall e, pr_g P <> m0 -> upc_verify P E' D fuel rand_g2' v d com z e proof = Ok true -> e = poly_at (firstn cap p) z).
  Proof using HE HE' HD.
    intros Hd Hlt.
    destruct (C37_exact_partial 32 16 d (or_introl eq_refl) Hd Hlt) as [j [xd [yd [Hdeg [[a [Ha Hx]] [_ [_ [_ [_ Hcap]]]]]]]]].
    destruct (bpc_setup_ok (P := P) rand rng xd yd) as [rng' Hs].
    set (alpha := fst (rand rng)) in *. set (beta := fst (rand (snd (rand rng)))) in *.
    exists (trap_bsrs alpha beta xd yd), rng', (trap_vsrs alpha beta), ((xd + 1) * (yd + 1)).
    split. { unfold upc_setup. rewrite Hdeg. cbn [rbind]. exact Hs. }
    split; [apply trap_bsrs_vkey|]. split; [exact Hcap|]. intros p z.
    destruct (bivariate_form_ok xd yd p) as [bp [Hbp [Hl [Hr He]]]]. specialize (He z).
    assert (Hwf : Forall (wf_row (yd + 1)) bp).
    { eapply Forall_impl; [|exact Hr]. intros r [Hst Hlr]. apply wf_row_stripped; auto. lia. }
    assert (Hle : length bp <= xd + 1) by lia.
    unfold upc_commit, upc_open, upc_verify. rewrite parse_degrees_trap, Hdeg. cbn [rbind]. rewrite Hbp. cbn [rbind].
    rewrite (bpc_commit_ok E HE rand_g2 alpha beta xd yd bp Hle Hwf).
    do 2 eexists. split; [reflexivity|].
    assert (Hx' : xd + 1 = 2 ^ S (a - 1)) by (rewrite Hx; f_equal; lia).
    destruct (bpc_complete_outcome E E' HE HE' D fuel rand_g2 rand_g2' alpha beta (a - 1) xd yd bp Hx' Hle Hwf
                (fpow z (yd + 1)) z HD) as [H|[pf [H V]]]; rewrite H; [now left|].
    right. exists pf. split; [reflexivity|]. rewrite He, ev_poly_at in V. split; [exact V|]. intros e Hg V'. exact (C61_one_value_per_proof_partial E' HE' D fuel HD rand_g2' alpha beta _ _ _ _ _ pf Hg V' V).
  Qed.

  (** [d] is what setup is told; [cap] the number of coefficients of the split.  The verifier accepts the opening the
      prover computes for the value [e] iff [e] is the value of the first [cap] coefficients. *)
  Theorem C80_opening_value (rng : R) d : 1 <= d -> (Z.of_nat d + 1 < 2 ^ 64)%Z -> pr_g P <> m0 ->
    exists s rng' v cap, upc_setup P rand rng d = Ok (s, rng') /\ get_verifier_key (fst s) = Ok v /\
      (d + 1 <= cap <-> ~ rounding_loses (Z.of_nat d)) /\
      forall p z, exists com coms, upc_commit P E rand_g2 s p = Ok (com, coms) /\
        (upc_open P E D fuel rand_g2 s p coms z = Loop \/
         exists proof, upc_open P E D fuel rand_g2 s p coms z = Ok proof /\
           forall e, upc_verify P E' D fuel rand_g2' v d com z e proof = Ok true <-> e = poly_at (firstn cap p) z).
  Proof using HE HE' HD.
    intros Hd Hlt Hg. destruct (upc_opening_value rng d Hd Hlt) as [s [rng' [v [cap [Hs [Hv [Hc H]]]]]]].
    exists s, rng', v, cap. repeat split; auto; try apply Hc. intros p z. destruct (H p z) as [com [coms [H1 H2]]].
    exists com, coms. split; [exact H1|]. destruct H2 as [H2|[pf [H2 [H3 H4]]]]; [now left|right].
    exists pf. split; [exact H2|]. intros e. split; [now apply H4|now intros ->].
  Qed.

  (** So the scheme is complete for every degree below 2^64 - 1 for which the split does not lose coefficients ... *)
  Theorem C80_complete (rng : R) d : 1 <= d -> (Z.of_nat d + 1 < 2 ^ 64)%Z -> pr_g P <> m0 -> ~ rounding_loses (Z.of_nat d) ->
    exists s rng' v, upc_setup P rand rng d = Ok (s, rng') /\ get_verifier_key (fst s) = Ok v /\
      forall p z, degree_below (d + 1) p -> exists com coms, upc_commit P E rand_g2 s p = Ok (com, coms) /\
        (upc_open P E D fuel rand_g2 s p coms z = Loop \/
         exists proof, upc_open P E D fuel rand_g2 s p coms z = Ok proof /\
           forall e, upc_verify P E' D fuel rand_g2' v d com z e proof = Ok true <-> e = poly_at p z).
  Proof using HE HE' HD.
    intros Hd Hlt Hg Hn. destruct (C80_opening_value rng d Hd Hlt Hg) as [s [rng' [v [cap [Hs [Hv [Hc H]]]]]]].
    exists s, rng', v. split; [exact Hs|]. split; [exact Hv|]. intros p z Hp.
    apply degree_below_wf, (wf_row_mono (d + 1) _ p (proj2 Hc Hn)) in Hp.
    pose proof (ev_firstn_wf _ p z Hp) as He. rewrite !ev_poly_at in He. rewrite <- He. apply H.
  Qed.

  Lemma upc_complete_wide (rng : R) d : 1 <= d -> (Z.of_nat d + 1 < 2 ^ 64)%Z -> ~ rounding_loses (Z.of_nat d) ->
    exists s rng' v, upc_setup P rand rng d = Ok (s, rng') /\ get_verifier_key (fst s) = Ok v /\
      forall p z, degree_below (d + 1) p -> exists com coms, upc_commit P E rand_g2 s p = Ok (com, coms) /\
        (upc_open P E D fuel rand_g2 s p coms z = Loop \/
         exists proof, upc_open P E D fuel rand_g2 s p coms z = Ok proof /\
           upc_verify P E' D fuel rand_g2' v d com z (poly_at p z) proof = Ok true).
  Proof using HE HE' HD.
    intros Hd Hlt Hn. destruct (upc_opening_value rng d Hd Hlt) as [s [rng' [v [cap [Hs [Hv [Hc H]]]]]]].
    exists s, rng', v. split; [exact Hs|]. split; [exact Hv|]. intros p z Hp.
    apply degree_below_wf, (wf_row_mono (d + 1) _ p (proj2 Hc Hn)) in Hp.
    pose proof (ev_firstn_wf _ p z Hp) as He. rewrite !ev_poly_at in He. rewrite <- He.
    destruct (H p z) as [com [coms [H1 [H2|[pf [H2 [H3 _]]]]]]]; exists com, coms; eauto.
  Qed.

  (** ... and for every other one the honest opening of X^d, a polynomial of the degree setup was asked for, at any
      non-zero point is rejected for its value and accepted for 0. *)
  Theorem C80_large_degrees_refuted (rng : R) d : 1 <= d -> (Z.of_nat d + 1 < 2 ^ 64)%Z -> pr_g P <> m0 -> rounding_loses (Z.of_nat d) ->
    degree_below (K := K) (d + 1) (monomial d) /\
    exists s rng' v, upc_setup P rand rng d = Ok (s, rng') /\ get_verifier_key (fst s) = Ok v /\
      forall z, z <> f0 -> exists com coms, upc_commit P E rand_g2 s (monomial d) = Ok (com, coms) /\
        (upc_open P E D fuel rand_g2 s (monomial d) coms z = Loop \/
         exists proof, upc_open P E D fuel rand_g2 s (monomial d) coms z = Ok proof /\
           upc_verify P E' D fuel rand_g2' v d com z f0 proof = Ok true /\
           upc_verify P E' D fuel rand_g2' v d com z (poly_at (monomial d) z) proof <> Ok true).
  Proof using HE HE' HD.
    intros Hd Hlt Hg Hn. split; [apply monomial_degree|].
    destruct (C80_opening_value rng d Hd Hlt Hg) as [s [rng' [v [cap [Hs [Hv [Hc H]]]]]]].
    exists s, rng', v. split; [exact Hs|]. split; [exact Hv|]. intros z Hz.
    assert (Hcd : cap <= d). { destruct (Nat.le_gt_cases cap d); auto. exfalso. apply (proj1 Hc); [lia|auto]. }
    destruct (H (monomial d) z) as [com [coms [H1 [H2|[pf [H2 H3]]]]]]; exists com, coms; (split; [exact H1|]); [now left|].
    right. exists pf. split; [exact H2|]. rewrite !H3, monomial_cut_at, monomial_at by auto. split; [reflexivity|].
    now apply fpow_nonzero.
  Qed.

  (** The same for the transparent scheme. *)
  Theorem C80_transparent_opening_value (rng : R) d : 1 <= d -> (Z.of_nat d + 1 < 2 ^ 64)%Z ->
    exists ck rng' cap, tupc_setup P E rand_g1 rand_g2 rng d = Ok (ck, rng') /\
      (d + 1 <= cap <-> ~ rounding_loses (Z.of_nat d)) /\
      forall p z, exists com coms, tupc_commit P E rand_g1 rand_g2 ck p = Ok (com, coms) /\
        (tupc_open P E D fuel rand_g1 rand_g2 ck p coms z = Loop \/
         exists proof, tupc_open P E D fuel rand_g1 rand_g2 ck p coms z = Ok proof /\
           forall e, tupc_verify P E' D fuel rand_g1' rand_g2' ck com z e proof = Ok true <-> e = poly_at (firstn cap p) z).
  Proof using HE HE' HD.
    intros Hd Hlt.
    destruct (C37_exact_partial 8 4 d (or_intror eq_refl) Hd Hlt) as [j [xd [yd [Hdeg [[a [Ha Hx]] [[b Hy] [_ [_ [_ Hcap]]]]]]]]].
    destruct (C40_setup E rand_g1 rand_g2 rng xd yd) as [ck1 [ck2 [rng' [Hs [H1 H2]]]]].
    exists (ck1, ck2), rng', ((xd + 1) * (yd + 1)).
    split. { unfold tupc_setup. rewrite Hdeg. cbn [rbind]. exact Hs. }
    split; [exact Hcap|]. intros p z.
    destruct (bivariate_form_ok xd yd p) as [bp [Hbp [Hl [Hr He]]]]. specialize (He z).
    assert (Hwf : Forall (fun r => length r <= length ck1) bp).
    { rewrite H1. eapply Forall_impl; [|exact Hr]. intros r [Hst Hlr]. exact Hlr. }
    assert (Hle : length bp <= length ck2) by lia.
    unfold tupc_commit, tupc_open, tupc_verify. rewrite (parse_degrees_ck_ok ck1 ck2 xd yd H2 H1). cbn [rbind]. rewrite Hbp. cbn [rbind].
    rewrite (tbpc_commit_ok E HE rand_g1 rand_g2 ck1 ck2 bp Hle Hwf).
    do 2 eexists. split; [reflexivity|].
    destruct (tbpc_complete_outcome E E' HE HE' D fuel rand_g1 rand_g1' rand_g2 rand_g2' ck1 ck2 bp Hle Hwf b a (fpow z (yd + 1)) z
                (eq_trans H2 Hx) (eq_trans H1 Hy) HD) as [H|[pf [H V]]]; rewrite H; [now left|].
    right. exists pf. split; [reflexivity|]. rewrite He, ev_poly_at in V. intros e. split.
    - intros V'. exact (C61_transparent_one_value_per_proof_partial E' HE' D fuel HD rand_g1' rand_g2' ck1 ck2 _ _ _ _ _ pf V' V).
    - intros ->. exact V.
  Qed.

  Theorem C80_transparent_complete (rng : R) d : 1 <= d -> (Z.of_nat d + 1 < 2 ^ 64)%Z -> ~ rounding_loses (Z.of_nat d) ->
    exists ck rng', tupc_setup P E rand_g1 rand_g2 rng d = Ok (ck, rng') /\
      forall p z, degree_below (d + 1) p -> exists com coms, tupc_commit P E rand_g1 rand_g2 ck p = Ok (com, coms) /\
        (tupc_open P E D fuel rand_g1 rand_g2 ck p coms z = Loop \/
         exists proof, tupc_open P E D fuel rand_g1 rand_g2 ck p coms z = Ok proof /\
           forall e, tupc_verify P E' D fuel rand_g1' rand_g2' ck com z e proof = Ok true <-> e = poly_at p z).
  Proof using HE HE' HD.
    intros Hd Hlt Hn. destruct (C80_transparent_opening_value rng d Hd Hlt) as [ck [rng' [cap [Hs [Hc H]]]]].
    exists ck, rng'. split; [exact Hs|]. intros p z Hp.
    apply degree_below_wf, (wf_row_mono (d + 1) _ p (proj2 Hc Hn)) in Hp.
    pose proof (ev_firstn_wf _ p z Hp) as He. rewrite !ev_poly_at in He. rewrite <- He. apply H.
  Qed.

  Theorem C80_transparent_large_degrees_refuted (rng : R) d : 1 <= d -> (Z.of_nat d + 1 < 2 ^ 64)%Z -> rounding_loses (Z.of_nat d) ->
    exists ck rng', tupc_setup P E rand_g1 rand_g2 rng d = Ok (ck, rng') /\
      forall z, z <> f0 -> exists com coms, tupc_commit P E rand_g1 rand_g2 ck (monomial d) = Ok (com, coms) /\
        (tupc_open P E D fuel rand_g1 rand_g2 ck (monomial d) coms z = Loop \/
         exists proof, tupc_open P E D fuel rand_g1 rand_g2 ck (monomial d) coms z = Ok proof /\
           tupc_verify P E' D fuel rand_g1' rand_g2' ck com z f0 proof = Ok true /\
           tupc_verify P E' D fuel rand_g1' rand_g2' ck com z (poly_at (monomial d) z) proof <> Ok true).
  Proof using HE HE' HD.
    intros Hd Hlt Hn. destruct (C80_transparent_opening_value rng d Hd Hlt) as [ck [rng' [cap [Hs [Hc H]]]]].
    exists ck, rng'. split; [exact Hs|]. intros z Hz.
    assert (Hcd : cap <= d). { destruct (Nat.le_gt_cases cap d); auto. exfalso. apply (proj1 Hc); [lia|auto]. }
    destruct (H (monomial d) z) as [com [coms [H1 [H2|[pf [H2 H3]]]]]]; exists com, coms; (split; [exact H1|]); [now left|].
    right. exists pf. split; [exact H2|]. rewrite !H3, monomial_cut_at, monomial_at by auto. split; [reflexivity|].
    now apply fpow_nonzero.
  Qed.
End C80.
Print Assumptions C80_opening_value.
Print Assumptions C80_complete.
Print Assumptions C80_large_degrees_refuted.
Print Assumptions C80_transparent_opening_value.
Print Assumptions C80_transparent_complete.
Print Assumptions C80_transparent_large_degrees_refuted.

(** d = 3 has 2 x 2 coefficients: the honest opening of 1 + 2 X + 3 X^2 + 4 X^3 + 9 X^4 at 3 is accepted for 142, the value
    of the first four, and not for 871, its own value. *)
Example C80_example :
  ex_upc 3 [1; 2; 3; 4; 9]%Z 3 142 = Ok (zq 839, true) /\ ex_upc 3 [1; 2; 3; 4; 9]%Z 3 871 = Ok (zq 839, false) /\
  ex_tupc 3 [1; 2; 3; 4; 9]%Z 3 142 = Ok (zq 431, true) /\ ex_tupc 3 [1; 2; 3; 4; 9]%Z 3 871 = Ok (zq 431, false).
Proof. vm_compute. repeat split; reflexivity. Qed.
(** both cases of the rounding occur within the range of the theorems *)
Example C80_both_cases : (exists d, (Z.of_nat d + 1 < 2 ^ 64)%Z /\ rounding_loses (Z.of_nat d)) /\
  (exists d, (2 ^ 52 < Z.of_nat d)%Z /\ (Z.of_nat d + 1 < 2 ^ 64)%Z /\ ~ rounding_loses (Z.of_nat d)).
Proof.
  destruct C37_rounding_examples as [H1 [_ [H2 _]]]. split.
  - exists (Z.to_nat (2 ^ 52)). rewrite Z2Nat.id by lia. split; [reflexivity|exact H1].
  - exists (Z.to_nat (2 ^ 54 + 5)). rewrite Z2Nat.id by lia. split; [reflexivity|]. split; [reflexivity|exact H2].
Qed.

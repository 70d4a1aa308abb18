(** Facts about the Groth16 aggregation (C41 - C44, C52). *)
Require Import List Arith NArith ZArith Lia Bool Field.
Import ListNotations.
Require Import Verif.Outcome Verif.Algebra Verif.Rust Verif.InnerProducts Verif.Commitments
  Verif.Gipa Verif.Poly Verif.Tipa Verif.Ssm Verif.Groth16 Verif.Spec Verif.ListFacts Verif.RustFacts
  Verif.InnerProductFacts Verif.CommitFacts Verif.GipaFacts Verif.GipaComplete Verif.GipaTop Verif.SerFacts
  Verif.PolyFacts Verif.KeyFacts Verif.TipaFacts Verif.SsmFacts Verif.RootFacts.

Section Ppe.
  Context {P : pairing}.
  Notation K := (pK P).
  Add Field KfPpe : (f_theory (pK P)).
  Variable E : penv.

  (** abc_0 + sum_j x_j abc_{j+1}: the public-input part of the Groth16 equation *)
  Definition input_comb (vk : g16_vk P) (row : list K) : pG1 P :=
    at_ (vk_gamma_abc_g1 vk) 0 +m
    big (length (vk_gamma_abc_g1 vk) - 1) (fun j => fat row j *m at_ (vk_gamma_abc_g1 vk) (S j)).

  Lemma rmapM_index (inputs : list (list K)) i : Forall (fun row => i < length row) inputs ->
    rmapM (fun row => index row i) inputs = Ok (map (fun row => fat row i) inputs).
  Proof.
    induction 1 as [|row inputs H F IH]; [reflexivity|]. cbn [rmapM map]. unfold index at 1.
    rewrite (nth_error_nth' row f0 H). cbn [runwrap rbind]. rewrite IH. reflexivity.
  Qed.

  Lemma ic_loop_spec (inputs : list (list K)) (r : K) : forall bs i (g : pG1 P),
    Forall (fun row => i + length bs <= length row) inputs ->
    g16_ic_loop P E i bs inputs (powers (length inputs) r) g =
    Ok (g +m big (length bs) (fun j => fbig (length inputs) (fun m => fat (nth m inputs []) (i + j) *f fpow r m) *m at_ bs j)).
  Proof.
    induction bs as [|b bs IH]; intros i g HF; cbn [g16_ic_loop length].
    - cbn [big]. now rewrite madd_0_r.
    - rewrite rmapM_index by (eapply Forall_impl; [|exact HF]; cbn; intros; lia). cbn [runwrap rbind].
      rewrite scalar_ip_dot by (rewrite map_length; symmetry; apply powers_length). cbn [runwrap rbind].
      rewrite IH by (eapply Forall_impl; [|exact HF]; cbn; intros; lia). f_equal.
      rewrite big_S_l, madd_assoc. f_equal.
      + f_equal. unfold at_ at 1. cbn [nth]. f_equal.
        etransitivity; [apply dot_scalar_sum; rewrite map_length; symmetry; apply powers_length|].
        unfold scalar_sum. rewrite map_length. apply fbig_ext. intros m Hm. f_equal.
        * rewrite Nat.add_0_r. unfold fat at 1. rewrite (nth_indep _ f0 (fat [] i)) by (rewrite map_length; auto).
          rewrite (map_nth (fun row => fat row i)). reflexivity.
        * unfold powers, fat. rewrite (nth_indep _ f0 (fpow r 0)) by (rewrite map_length, seq_length; auto).
          rewrite (map_nth (fpow r)), seq_nth by auto. reflexivity.
      + apply big_ext. intros j Hj. f_equal. apply fbig_ext. intros m Hm. f_equal. f_equal. lia.
  Qed.

  Lemma geometric (r : K) n : r <> f1 -> fbig n (fpow r) = (fpow r n -f f1) *f finv (r -f f1).
  Proof.
    intros Hr. assert (r -f f1 <> f0) by (intros H; apply Hr; now apply (proj1 (fsub_eq0 _ _ _))).
    induction n; cbn [fbig fpow].
    - field; auto.
    - rewrite IHn. field; auto.
  Qed.

  Lemma rdiv_ok (x y : K) : y <> f0 -> rdiv P x y = Ok (x *f finv y).
  Proof. intros H. unfold rdiv. now rewrite finverse_neq. Qed.
  Lemma rdiv_0 (x : K) : rdiv P x f0 = Panic.
  Proof. unfold rdiv. now rewrite finverse_0. Qed.

  (** sum_i r^i (e(alpha, beta) + e(IC_i, gamma)) + e(C, delta) *)
  Definition ppe_rhs (vk : g16_vk P) (inputs : list (list K)) (r : K) (agg_c : pG1 P) : pGT P :=
    big (length inputs) (fun i => fpow r i *m (pr_e P (vk_alpha_g1 vk) (vk_beta_g2 vk) +m
                                               pr_e P (input_comb vk (nth i inputs [])) (vk_gamma_g2 vk)))
    +m pr_e P agg_c (vk_delta_g2 vk).

  Lemma big_e_l n (F : nat -> pG1 P) (y : pG2 P) : big n (fun i => pr_e P (F i) y) = pr_e P (big n F) y.
  Proof.
    induction n; cbn [big].
    - symmetry. exact (bil_0_l _ (pr_e_bilinear P) y).
    - rewrite IHn. symmetry. apply (e_add_l P).
  Qed.

  Lemma ppe_spec (vk : g16_vk P) inputs (r : K) ip agg_c : r <> f1 -> inputs <> [] ->
    length (nth 0 inputs []) + 1 = length (vk_gamma_abc_g1 vk) ->
    Forall (fun row => length (vk_gamma_abc_g1 vk) - 1 <= length row) inputs ->
    g16_ppe P E vk inputs r ip agg_c = Ok (meqb ip (ppe_rhs vk inputs r agg_c)).
  Proof.
    intros Hr Hne H0 HF. assert (r -f f1 <> f0) by (intros H; apply Hr; now apply (proj1 (fsub_eq0 _ _ _))).
    assert (Hn : 0 < length inputs) by (destruct inputs; [congruence|cbn; lia]).
    unfold g16_ppe. rewrite rdiv_ok by auto. rewrite <- geometric by auto. cbn [runwrap rbind].
    set (n := length inputs) in *. set (rs := fbig n (fpow r)).
    unfold index at 1. rewrite (nth_error_nth' inputs [] Hn). cbn [runwrap rbind].
    match goal with |- context [rassert ?b] => replace b with true by (symmetry; apply Nat.eqb_eq; symmetry; exact H0) end.
    cbn [runwrap rassert rbind].
    rewrite structured_scalar_power_spec, Nat.max_l by lia. cbn [runwrap rbind]. fold (powers n r).
    destruct (vk_gamma_abc_g1 vk) as [|abc0 abc] eqn:Eabc; [cbn in H0; lia|].
    cbn [index nth_error rbind skipn length] in *. unfold index. cbn [nth_error runwrap rbind].
    unfold n. rewrite ic_loop_spec by (eapply Forall_impl; [|exact HF]; cbn; intros; lia).
    cbn [runwrap rbind]. fold n. f_equal. f_equal. unfold ppe_rhs. fold n. f_equal.
    assert (HI : rs *m abc0 +m big (length abc) (fun j => fbig n (fun m => fat (nth m inputs []) (0 + j) *f fpow r m) *m at_ abc j) =
                 big n (fun i => fpow r i *m input_comb vk (nth i inputs []))).
    { unfold input_comb. rewrite Eabc. cbn [length]. replace (S (length abc) - 1) with (length abc) by lia.
      rewrite (big_ext n (fun i => fpow r i *m (at_ (abc0 :: abc) 0 +m big (length abc) (fun j => fat (nth i inputs []) j *m at_ (abc0 :: abc) (S j))))
                 (fun i => fpow r i *m abc0 +m big (length abc) (fun j => (fat (nth i inputs []) j *f fpow r i) *m at_ abc j))).
      2:{ intros i Hi. rewrite mscale_add_r. unfold at_ at 1. cbn [nth]. f_equal. rewrite <- big_scale. apply big_ext. intros j Hj.
          rewrite <- mscale_mul. unfold at_. cbn [nth]. f_equal. ring. }
      rewrite big_add. rewrite big_fscale. f_equal. rewrite big_swap. apply big_ext. intros j Hj. now rewrite big_fscale. }
    rewrite HI.
    rewrite <- big_e_l. rewrite (big_ext n _ (fun i => fpow r i *m pr_e P (input_comb vk (nth i inputs [])) (vk_gamma_g2 vk)))
      by (intros; apply e_scale_l).
    rewrite e_scale_l. unfold rs. rewrite <- (big_fscale n (fpow r)). rewrite <- big_add. apply big_ext. intros i Hi.
    now rewrite mscale_add_r.
  Qed.

  Lemma ppe_one vk inputs ip agg_c : g16_ppe P E vk inputs f1 ip agg_c = Panic.
  Proof.
    unfold g16_ppe. replace (f1 -f f1 : K) with (f0 : K) by ring. now rewrite rdiv_0.
  Qed.
End Ppe.

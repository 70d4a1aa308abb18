(** Properties C76 and C77: special soundness of the polynomial commitments. *)
Require Import List Arith NArith ZArith Lia Bool Field.
Import ListNotations.
Require Import Verif.Outcome Verif.Algebra Verif.Zp Verif.Rust Verif.InnerProducts Verif.Commitments
  Verif.Gipa Verif.Poly Verif.Tipa Verif.Ssm Verif.Floats Verif.PolyCommit Verif.Transparent Verif.Groth16 Verif.Spec Verif.ListFacts
  Verif.RustFacts Verif.InnerProductFacts Verif.CommitFacts Verif.GipaFacts Verif.GipaComplete Verif.GipaTop Verif.GipaAttack
  Verif.SerFacts Verif.PolyFacts Verif.KeyFacts Verif.TipaFacts Verif.SsmFacts Verif.RootFacts Verif.Groth16Facts Verif.PcFacts Verif.UpcFacts Verif.TransparentFacts
  Verif.VerifyFacts Verif.SpecialFacts Verif.SsmSpecial Verif.PcSpecial
  Verif.PropsBase Verif.PropsGipa Verif.PropsTipa Verif.PropsSsm Verif.PropsVerify Verif.PropsSpecial Verif.PropsGroth Verif.PropsPcVerify Verif.PropsGrothVerify
  Verif.Forger Verif.PcAttack Verif.TipaForge Verif.PropsPoly Verif.PropsTipaForge Verif.PropsSsmSpecial.

(** ** C76: the transparent scheme *)
(** The transcripts for one point: the claimed value and commitment to p(x, Y), and a tree for each of the two arguments. *)
Record t_branch (P : pairing) : Type := mk_t_branch {
  tb_x : pK P;
  tb_y : pK P;
  tb_e : pK P;
  tb_comm : pG1 P;
  tb_outer : tree (com3 (mod_carrier (pGT P)) (mod_carrier (fmod (pK P))) (identity_output (pG1 P)) *
                   com3 (mod_carrier (pGT P)) (mod_carrier (fmod (pK P))) (identity_output (pG1 P))) (pK P) (pG1 P) (fmod (pK P));
  tb_inner : tree (com3 (mod_carrier (pG1 P)) (mod_carrier (fmod (pK P))) (identity_output (fmod (pK P))) *
                   com3 (mod_carrier (pG1 P)) (mod_carrier (fmod (pK P))) (identity_output (fmod (pK P)))) (pK P) (fmod (pK P)) (fmod (pK P)) }.
Arguments mk_t_branch {P}.
Arguments tb_x {P}.
Arguments tb_y {P}.
Arguments tb_e {P}.
Arguments tb_comm {P}.
Arguments tb_outer {P}.
Arguments tb_inner {P}.

(** Every path of the two trees is part of an opening accepted for this point and value; at each node the challenges differ. *)
Definition t_branch_accepted {R} {P : pairing} (E : penv) (r1 : sampler R (pG1 P)) (r2 : sampler R (pG2 P))
    (ck : list (pG1 P) * list (pG2 P)) (com : pGT P) (br : t_branch P) : Prop :=
  let accepted D fuel proof :=
    digest16 D /\ to_y_eval_comm proof = tb_comm br /\
    tbpc_verify P E D fuel r1 r2 ck com (tb_x br, tb_y br) (tb_e br) proof = Ok true in
  (forall st cs base, In (st, cs, base) (paths (tb_outer br)) ->
   exists D fuel proof, accepted D fuel proof /\ round_challenges D fuel f0 st cs /\ to_second proof = mk_gipa_proof (rev st) base) /\
  (forall st cs base, In (st, cs, base) (paths (tb_inner br)) ->
   exists D fuel proof, accepted D fuel proof /\ round_challenges D fuel f0 st cs /\ to_first proof = mk_gipa_proof (rev st) base) /\
  distinct_challenges (tb_outer br) /\ distinct_challenges (tb_inner br).

(** The extractor: a polynomial, or two openings under the second (first) key. *)
Inductive t_collision (P : pairing) : Type :=
| CollisionRows (x y : list (pG1 P))
| CollisionCoeffs (x y : list (fmod (pK P))).
Arguments CollisionRows {P}.
Arguments CollisionCoeffs {P}.

Section Extractor.
  Context {P : pairing}.
  Notation K := (pK P).
  Definition t_branch_extract (br : t_branch P) : (K * list (pG1 P) * list (fmod K)) + t_collision P :=
    match extract1 (tb_outer br) with
    | inr w => inr (CollisionRows w (zeros w))
    | inl rows =>
      match extract1 (tb_inner br) with
      | inr w => inr (CollisionCoeffs w (zeros w))
      | inl coeffs => inl (tb_x br, rows, coeffs)
      end
    end.
  Fixpoint all_extract (brs : list (t_branch P)) : list (K * list (pG1 P) * list (fmod K)) + t_collision P :=
    match brs with
    | [] => inl []
    | br :: brs =>
      match t_branch_extract br, all_extract brs with
      | inl e, inl es => inl (e :: es)
      | inl _, inr c => inr c
      | inr c, _ => inr c
      end
    end.
  (** n rows, m columns *)
  Definition t_extract (n m : nat) (brs : list (t_branch P)) : bipoly K + t_collision P :=
    match all_extract brs with
    | inr c => inr c
    | inl es =>
      let rows0 := match es with (_, rows, _) :: _ => rows | [] => [] end in
      match find (fun '(_, rows, _) => negb (vec_eqb rows0 rows)) es with
      | Some (_, rows, _) => inr (CollisionRows rows0 rows)
      | None =>
        let p := interpolate_rows n m (map (fun '(x, _, _) => x) (firstn n es)) (map (fun '(_, _, c) => c) (firstn n es)) in
        match find (fun '(x, _, c) => negb (vec_eqb (K := K) (M := fmod K) c (at_x p m x))) es with
        | Some (x, _, c) => inr (CollisionCoeffs c (at_x p m x))
        | None => inl p
        end
      end
    end.
End Extractor.

Section C76.
  Context {R : Type} {P : pairing}.
  Notation K := (pK P).
  Add Field KfC76 : (f_theory (pK P)).
  Variables (E : penv) (HE : 1 <= threads E) (r1 : sampler R (pG1 P)) (r2 : sampler R (pG2 P)).
  Variables (ck1 : list (pG1 P)) (ck2 : list (pG2 P)) (com : pGT P).
  Notation lmc1 := (pedersen (pG1 P) r1).
  Notation lmc2 := (afgho_g1 P E r2).
  Notation n := (length ck2).
  Notation m := (length ck1).
  Definition t_collides (c : t_collision P) : Prop :=
    match c with
    | CollisionRows x y => collides lmc2 ck2 x y
    | CollisionCoeffs x y => collides lmc1 ck1 x y
    end.
  (** what a branch yields *)
  Definition t_opened (br : t_branch P) (e : K * list (pG1 P) * list (fmod K)) : Prop :=
    let '(x, rows, coeffs) := e in
    x = tb_x br /\ length rows = n /\ length coeffs = m /\ dh_commit lmc2 ck2 rows = Ok com /\ mev rows x = tb_comm br /\
    dot smul ck1 coeffs = tb_comm br /\ poly_evaluate coeffs (tb_y br) = tb_e br.

  Lemma verify_parts D fuel proof x y e :
    tbpc_verify P E D fuel r1 r2 (ck1, ck2) com (x, y) e proof = Ok true ->
    gssm_verify lmc2 (identity (R := R) (pG1 P)) (multiexp_ip (pG1 P)) D fuel E (ck2, (tt : unitmod K))
      ((com : mod_carrier (pGT P)), ([to_y_eval_comm proof] : identity_output (pG1 P))) x (to_second proof) = Ok true /\
    gssm_verify lmc1 (identity (R := R) (fmod K)) (@scalar_ip K E) D fuel E (ck1, (tt : unitmod K))
      ((to_y_eval_comm proof : mod_carrier (pG1 P)), ([e] : identity_output (fmod K))) y (to_first proof) = Ok true.
  Proof using.
    unfold tbpc_verify. intros H. apply rbind_ok in H as [b1 [H1 H]]. apply rbind_ok in H as [b2 [H2 H]].
    assert (Hb : b1 && b2 = true) by congruence. apply andb_true_iff in Hb as [-> ->]. auto.
  Qed.

  Lemma t_branch_ok br : t_branch_accepted E r1 r2 (ck1, ck2) com br ->
    match t_branch_extract br with inl e => t_opened br e | inr c => t_collides c end.
  Proof using HE.
    intros [Ho [Hi [Do Di]]].
    assert (To : gssm_tree_accepted lmc2 (identity (R := R) (pG1 P)) (multiexp_ip (pG1 P)) E ck2 (tt : unitmod K)
      ((com : mod_carrier (pGT P)), ([tb_comm br] : identity_output (pG1 P))) (tb_x br) (tb_outer br)).
    { intros st cs base Hin. destruct (Ho st cs base Hin) as [D [fuel [proof [[HD [HY HV]] [Hc Hg]]]]]. exists D, fuel.
      split; [exact HD|]. split; [exact Hc|]. rewrite <- Hg, <- HY. exact (proj1 (verify_parts _ _ _ _ _ _ HV)). }
    assert (Ti : gssm_tree_accepted lmc1 (identity (R := R) (fmod K)) (@scalar_ip K E) E ck1 (tt : unitmod K)
      ((tb_comm br : mod_carrier (pG1 P)), ([tb_e br] : identity_output (fmod K))) (tb_y br) (tb_inner br)).
    { intros st cs base Hin. destruct (Hi st cs base Hin) as [D [fuel [proof [[HD [HY HV]] [Hc Hg]]]]]. exists D, fuel.
      split; [exact HD|]. split; [exact Hc|]. rewrite <- Hg, <- HY. exact (proj2 (verify_parts _ _ _ _ _ _ HV)). }
    pose proof (C74_gssm_special_sound (phi_g1 P) smul lmc2 (multiexp_ip (pG1 P)) (afgho_g1_law P E HE r2) (multiexp_ip_law _)
      E ck2 tt com [tb_comm br] (tb_x br) (tb_outer br) To Do) as Xo.
    pose proof (C74_gssm_special_sound (smul (M := pG1 P)) (fmul' (K := K)) lmc1 (@scalar_ip K E) (pedersen_law _ r1) (scalar_ip_law E)
      E ck1 tt (tb_comm br) [tb_e br] (tb_y br) (tb_inner br) Ti Di) as Xi.
    unfold t_branch_extract. destruct (extract1 (tb_outer br)) as [rows|w].
    2:{ cbn [t_collides]. replace (zeros w : list (pG1 P)) with (zeros ck2 : list (pG1 P)); [exact Xo|]. apply zeros_len. symmetry. apply Xo. }
    destruct (extract1 (tb_inner br)) as [coeffs|w].
    2:{ cbn [t_collides]. replace (zeros w : list (fmod K)) with (zeros ck1 : list (fmod K)); [exact Xi|]. apply zeros_len. symmetry. apply Xi. }
    destruct Xo as [L1 [O1 O2]]. destruct Xi as [L2 [I1 I2]]. cbn [t_opened].
    split; [reflexivity|]. split; [exact L1|]. split; [exact L2|]. split; [exact O1|].
    change (at_ [tb_comm br] 0) with (tb_comm br) in O2. change (at_ ([tb_e br] : list (fmod K)) 0) with (tb_e br) in I2.
    split; [|split].
    - destruct (C02_multiexp_outcome _ _ rows (powers n (tb_x br))) as [[He e]|[_ He]]; [exfalso; apply He; etransitivity; [exact L1|symmetry; apply powers_length]|].
      rewrite He in O2. apply Ok_inj in O2. rewrite <- O2, mev_big. unfold msm_sum. rewrite L1. apply big_ext. intros i Hi'. f_equal. symmetry.
      unfold powers. now apply fat_map_seq.
    - rewrite (lc_commit _ _ _ (pedersen_law (pG1 P) r1)) in I1 by congruence. apply Ok_inj in I1. exact I1.
    - destruct (C02_scalar_outcome K E coeffs (powers m (tb_y br))) as [[He e]|[_ He]]; [exfalso; apply He; etransitivity; [exact L2|symmetry; apply powers_length]|].
      rewrite He in I2. apply Ok_inj in I2. rewrite <- I2, ev_poly_at. unfold poly_at, scalar_sum.
      replace (length (coeffs : list K)) with m by (symmetry; exact L2). apply fbig_ext. intros i Hi'. f_equal. symmetry.
      unfold powers. now apply fat_map_seq.
  Qed.

  Lemma all_extract_ok brs : Forall (t_branch_accepted E r1 r2 (ck1, ck2) com) brs ->
    match all_extract brs with inl es => Forall2 t_opened brs es | inr c => t_collides c end.
  Proof using HE.
    induction 1 as [|br brs H _ IH]; cbn [all_extract]; [constructor|]. pose proof (t_branch_ok br H) as Hb.
    destruct (t_branch_extract br) as [e|c]; [|exact Hb]. destruct (all_extract brs) as [es|c]; [|exact IH]. now constructor.
  Qed.

  Lemma opened_rows e br br' e' : t_opened br e -> t_opened br' e' -> snd (fst e) <> snd (fst e') -> collides lmc2 ck2 (snd (fst e)) (snd (fst e')).
  Proof using.
    destruct e as [[x rows] c], e' as [[x' rows'] c']. cbn [fst snd]. intros [_ [H1 [_ [H2 _]]]] [_ [H1' [_ [H2' _]]]] Hne.
    split; [exact Hne|]. split; [exact H1|]. split; [exact H1'|]. eauto.
  Qed.

  (** From openings at points with as many different x as the second key has elements, and at any further points, the extractor
      computes a polynomial which has the commitment com and all the claimed values; or a collision. *)
  Theorem C76_transparent_special_sound (brs : list (t_branch P)) :
    n <= length brs -> NoDup (map tb_x (firstn n brs)) -> 0 < n ->
    Forall (t_branch_accepted E r1 r2 (ck1, ck2) com) brs ->
    match t_extract n m brs with
    | inl p => length p = n /\ Forall (fun row => length row = m) p /\
        (exists rows, tbpc_commit P E r1 r2 (ck1, ck2) p = Ok (com, rows)) /\
        Forall (fun br => bipoly_at p (tb_x br) (tb_y br) = tb_e br) brs
    | inr c => t_collides c
    end.
  Proof using HE.
    intros Hlen Hnd Hn HF. pose proof (all_extract_ok brs HF) as HA. unfold t_extract. destruct (all_extract brs) as [es|c]; [|exact HA].
    pose proof (Forall2_len HA) as Le.
    set (rows0 := match es with (_, rows, _) :: _ => rows | [] => [] end).
    assert (H0 : exists br0 e0, t_opened br0 e0 /\ snd (fst e0) = rows0).
    { destruct HA as [|br0 e0 brs' es' H0 _]; [cbn in Hlen; lia|]. exists br0, e0. split; [exact H0|]. now destruct e0 as [[x rows] c]. }
    destruct H0 as [br0 [e0 [H0 Er]]].
    assert (Hin : forall e, In e es -> exists br, In br brs /\ t_opened br e).
    { clear - HA. induction HA as [|br e brs es H HA IH]; intros e' [].
      - subst e'. exists br. split; [now left|exact H].
      - destruct (IH e' H0) as [b [I1 I2]]. exists b. split; [now right|exact I2]. }
    destruct (find _ es) as [[[x rows] c]|] eqn:Ef.
    { apply find_some in Ef as [Hi Hne]. apply vec_neqb in Hne. destruct (Hin _ Hi) as [br [_ Hb]]. cbn [t_collides]. rewrite <- Er in *.
      exact (opened_rows e0 br0 br (x, rows, c) H0 Hb Hne). }
    assert (Hrows : forall x rows c, In (x, rows, c) es -> rows = rows0).
    { intros x rows c Hi. pose proof (find_none _ _ Ef _ Hi) as Hq. cbn in Hq. apply negb_false_iff, vec_eqb_spec in Hq. congruence. }
    clear Ef. cbv zeta.
    set (xs := map (fun '(x, _, _) => x) (firstn n es)). set (cs := map (fun '(_, _, c) => c) (firstn n es)).
    set (p := interpolate_rows n m xs cs). pose proof (interpolate_rows_rect n m xs cs) as HR. fold p in HR.
    assert (Hxs : xs = map tb_x (firstn n brs)).
    { unfold xs. clear - HA. revert es HA. generalize n. induction brs as [|br brs IH]; intros k es HA; inversion HA as [|? [[x rows] c] ? es' H1 H2]; subst; destruct k; try reflexivity.
      cbn [firstn map]. f_equal; [exact (proj1 H1)|]. now apply IH. }
    assert (Lxs : length xs = n) by (unfold xs; rewrite map_length, firstn_length; lia).
    assert (Lcs : rectangle n m cs).
    { split; [unfold cs; rewrite map_length, firstn_length; lia|]. apply Forall_forall. intros c Hc. apply in_map_iff in Hc as [[[x rows] c'] [<- Hi]].
      destruct (Hin (x, rows, c')) as [br [_ [_ [_ [H _]]]]]; [rewrite <- (firstn_skipn n es); apply in_or_app; now left|]. exact H. }
    (* the first key commits to the rows *)
    assert (Hcom : rows0 = map (fun row => dot smul ck1 (row : list (fmod K))) p).
    { apply (rows_unique xs); [now rewrite Hxs| | |].
      - rewrite Lxs, <- Er. destruct e0 as [[x rows] c]. apply H0.
      - rewrite map_length, Lxs. apply HR.
      - intros x Hx. apply (In_nth _ _ f0) in Hx as [k [Hk Ex]]. rewrite Lxs in Hk.
        set (e := nth k es (f0, [], [])). assert (He : In e es) by (apply nth_In; lia).
        destruct (Hin e He) as [br [_ Hb]]. destruct e as [[x' rows'] c'] eqn:Ee. rewrite (Hrows _ _ _ He) in Hb.
        destruct Hb as [_ [_ [_ [_ [B1 [B2 _]]]]]].
        assert (F1 : x' = x).
        { rewrite <- Ex. unfold xs. etransitivity; [|symmetry; exact (map_nth (fun '(x, _, _) => x) (firstn n es) (f0 : K, [] : list (pG1 P), [] : list (fmod K)) k)].
          rewrite nth_firstn_lt' by exact Hk. unfold e in Ee. rewrite Ee. reflexivity. }
        assert (F2 : c' = nth k cs []).
        { unfold cs. etransitivity; [|symmetry; exact (map_nth (fun '(_, _, c) => c) (firstn n es) (f0 : K, [] : list (pG1 P), [] : list (fmod K)) k)].
          rewrite nth_firstn_lt' by exact Hk. unfold e in Ee. rewrite Ee. reflexivity. }
        subst x'. rewrite B1, <- B2. rewrite (at_x_commit n m ck1 p x eq_refl HR). rewrite <- Ex. unfold p.
        change (nth k xs f0) with (fat xs k). rewrite at_x_interpolate; auto; [now rewrite F2|now rewrite Hxs]. }
    destruct (find _ es) as [[[x rows] c]|] eqn:Ef.
    { apply find_some in Ef as [Hi Hne]. apply vec_neqb in Hne. destruct (Hin _ Hi) as [br [_ [_ [B0 [B1 [_ [B2 [B3 _]]]]]]]]. cbn [t_collides].
      split; [exact Hne|]. split; [exact B1|]. split; [apply at_x_length|]. exists (tb_comm br : pG1 P).
      split; [rewrite (lc_commit _ _ _ (pedersen_law (pG1 P) r1)) by congruence; unfold mid; now rewrite B3|].
      etransitivity; [exact (lc_commit _ _ _ (pedersen_law (pG1 P) r1) ck1 (at_x p m x : list (fmod K)) (eq_sym (at_x_length p m x)))|].
      unfold mid. f_equal. etransitivity; [symmetry; exact (at_x_commit n m ck1 p x eq_refl HR)|]. rewrite <- Hcom, <- B2. f_equal. symmetry. exact (Hrows _ _ _ Hi). }
    split; [apply HR|]. split; [apply HR|]. split.
    - exists rows0. rewrite tbpc_commit_ok; auto.
      + assert (Hco : map (fun r => dot smul ck1 (resize m f0 r : list (fmod K))) (resize n [] p) = rows0).
        { destruct HR as [R1 R2]. rewrite resize_self by exact R1. rewrite Hcom. apply map_ext_in. intros row Hrow. rewrite Forall_forall in R2.
          rewrite resize_self by (exact (R2 row Hrow)). reflexivity. }
        rewrite Hco. f_equal. f_equal. destruct e0 as [[x0 rows] c0]. cbn [fst snd] in Er. subst rows. destruct H0 as [_ [L0 [_ [Hc _]]]].
        rewrite (lc_commit _ _ _ (afgho_g1_law P E HE r2)) in Hc by congruence. apply Ok_inj in Hc. exact Hc.
      + destruct HR; lia.
      + eapply Forall_impl; [|apply HR]. cbn. intros; lia.
    - clearbody p. clear - HA Ef HR. induction HA as [|br [[x rows] c] brs es H HA IH]; [constructor|]. cbn [find] in Ef.
      destruct (negb _) eqn:En in Ef; [discriminate|]. constructor; [|now apply IH].
      apply negb_false_iff, vec_eqb_spec in En. destruct H as [-> [_ [_ [_ [_ [_ B]]]]]].
      rewrite <- C35_bivariate_evaluation, <- (at_x_value n m) by exact HR. rewrite <- B. f_equal. now symmetry.
  Qed.
End C76.
Print Assumptions C76_transparent_special_sound.

(** *** The univariate transparent scheme: the point z is used as x = z^m, y = z *)
Definition t_uni_accepted {R} {P : pairing} (E : penv) (r1 : sampler R (pG1 P)) (r2 : sampler R (pG2 P))
    (ck : list (pG1 P) * list (pG2 P)) (com : pGT P) (br : t_branch P) : Prop :=
  let accepted D fuel proof :=
    digest16 D /\ to_y_eval_comm proof = tb_comm br /\
    tupc_verify P E D fuel r1 r2 ck com (tb_y br) (tb_e br) proof = Ok true in
  tb_x br = fpow (tb_y br) (length (fst ck)) /\
  (forall st cs base, In (st, cs, base) (paths (tb_outer br)) ->
   exists D fuel proof, accepted D fuel proof /\ round_challenges D fuel f0 st cs /\ to_second proof = mk_gipa_proof (rev st) base) /\
  (forall st cs base, In (st, cs, base) (paths (tb_inner br)) ->
   exists D fuel proof, accepted D fuel proof /\ round_challenges D fuel f0 st cs /\ to_first proof = mk_gipa_proof (rev st) base) /\
  distinct_challenges (tb_outer br) /\ distinct_challenges (tb_inner br).

Section C76Uni.
  Context {R : Type} {P : pairing}.
  Notation K := (pK P).
  Add Field KfC76u : (f_theory (pK P)).
  Variables (E : penv) (HE : 1 <= threads E) (r1 : sampler R (pG1 P)) (r2 : sampler R (pG2 P)).
  Variables (ck1 : list (pG1 P)) (ck2 : list (pG2 P)) (com : pGT P).
  Notation n := (length ck2).
  Notation m := (length ck1).

  Lemma uni_branch br : 0 < n -> 0 < m -> t_uni_accepted E r1 r2 (ck1, ck2) com br -> t_branch_accepted E r1 r2 (ck1, ck2) com br.
  Proof using.
    clear HE. intros Hn Hm [Hx [Ho [Hi Hd]]]. cbn [fst] in Hx.
    assert (Hv : forall D fuel proof, tupc_verify P E D fuel r1 r2 (ck1, ck2) com (tb_y br) (tb_e br) proof =
      tbpc_verify P E D fuel r1 r2 (ck1, ck2) com (tb_x br, tb_y br) (tb_e br) proof).
    { intros D fuel proof. unfold tupc_verify, parse_degrees_ck. cbn [fst snd]. destruct (Nat.ltb_spec 0 n); [|lia]. destruct (Nat.ltb_spec 0 m); [|lia].
      cbn [rassert rbind]. replace (m - 1 + 1) with m by lia. now rewrite Hx. }
    split; [|split; [|exact Hd]]; intros st cs base Hin.
    - destruct (Ho st cs base Hin) as [D [fuel [proof [[H1 [H2 H3]] [H4 H5]]]]]. rewrite Hv in H3. exists D, fuel, proof. auto.
    - destruct (Hi st cs base Hin) as [D [fuel [proof [[H1 [H2 H3]] [H4 H5]]]]]. rewrite Hv in H3. exists D, fuel, proof. auto.
  Qed.

  Lemma concat_length p k l : rectangle (K := K) k l p -> length (concat p) = k * l.
  Proof using.
    clear. intros [<- H]. induction H as [|row p Hr H IH]; [reflexivity|]. cbn [concat length]. rewrite app_length, IH, Hr. cbn. lia.
  Qed.
  Lemma take_rows_concat l p : Forall (fun row : list K => length row = l) p -> take_rows (length p) l (concat p) = Ok (map from_coefficients p).
  Proof using.
    clear. induction 1 as [|row p Hr H IH]; [reflexivity|]. cbn [length take_rows concat map]. rewrite take_row_ok by (rewrite app_length; lia).
    cbn [rbind].
    assert (firstn l (row ++ concat p) = row) as -> by (rewrite firstn_app, <- Hr, Nat.sub_diag, firstn_all; apply app_nil_r).
    assert (skipn l (row ++ concat p) = concat p) as -> by (rewrite skipn_app, <- Hr, Nat.sub_diag, skipn_all; reflexivity).
    rewrite IH. reflexivity.
  Qed.
  Lemma ev_concat l p z : Forall (fun row : list K => length row = l) p ->
    poly_evaluate (concat p) z = fbig (length p) (fun i => fpow (fpow z l) i *f poly_evaluate (nth i p []) z).
  Proof using.
    clear. induction 1 as [|row p Hr H IH]; [reflexivity|]. cbn [concat length]. rewrite ev_app, IH, fbig_S_l, Hr. cbn [nth fpow]. rewrite <- fbig_scale.
    replace (f1 *f poly_evaluate row z) with (poly_evaluate row z) by ring. f_equal. apply fbig_ext. intros i Hi. ring.
  Qed.

  Lemma strip_pad (l : list K) : Poly.strip l ++ repeat f0 (length l - length (Poly.strip l)) = l.
  Proof using.
    clear. induction l as [|a l IH]; [reflexivity|]. cbn [Poly.strip].
    pose proof (strip_length l) as Hl. destruct (Poly.strip l) as [|b s] eqn:Es.
    - destruct (feqb a f0) eqn:Ea.
      + apply feqb_spec in Ea. subst a. cbn [length app Nat.sub repeat] in *. f_equal. rewrite Nat.sub_0_r in IH. exact IH.
      + cbn [length app Nat.sub] in *. f_equal. exact IH.
    - cbn [length app Nat.sub] in *. f_equal. exact IH.
  Qed.
  Lemma resize_strip (l : list K) k : length l = k -> resize k f0 (from_coefficients l) = l.
  Proof using.
    clear. intros <-. unfold resize, from_coefficients. rewrite firstn_all2 by apply strip_length. apply strip_pad.
  Qed.

  Theorem C76_univariate_special_sound (brs : list (t_branch P)) :
    n <= length brs -> NoDup (map tb_x (firstn n brs)) -> 0 < n -> 0 < m ->
    Forall (t_uni_accepted E r1 r2 (ck1, ck2) com) brs ->
    match t_extract n m brs with
    | inl p => length (concat p) = n * m /\
        (exists rows, tupc_commit P E r1 r2 (ck1, ck2) (concat p) = Ok (com, rows)) /\
        Forall (fun br => poly_at (concat p) (tb_y br) = tb_e br) brs
    | inr c => t_collides E r1 r2 ck1 ck2 c
    end.
  Proof using HE.
    intros Hl Hnd Hn Hm HF.
    assert (HF' : Forall (t_branch_accepted E r1 r2 (ck1, ck2) com) brs) by (eapply Forall_impl; [|exact HF]; intros br; now apply uni_branch).
    pose proof (C76_transparent_special_sound E HE r1 r2 ck1 ck2 com brs Hl Hnd Hn HF') as H.
    destruct (t_extract n m brs) as [p|c]; [|exact H]. destruct H as [Lp [Rp [[rows Hc] Hv]]].
    split; [apply concat_length; split; auto|]. split.
    - exists rows. rewrite <- Hc. unfold tupc_commit, parse_degrees_ck. cbn [fst snd]. destruct (Nat.ltb_spec 0 n); [|lia]. destruct (Nat.ltb_spec 0 m); [|lia].
      cbn [rassert rbind]. unfold bivariate_form. replace (n - 1 + 1) with n by lia. replace (m - 1 + 1) with m by lia.
      rewrite chain_take_resize, resize_self by (apply concat_length; split; auto). rewrite <- Lp. rewrite (take_rows_concat m p Rp). cbn [rbind].
      rewrite !tbpc_commit_ok; auto; rewrite ?map_length; try lia.
      + rewrite !resize_self by (rewrite ?map_length; auto). 
        assert (He : map (fun r => dot smul ck1 (resize m f0 r : list (fmod K))) (map from_coefficients p) = map (fun r => dot smul ck1 (resize m f0 r : list (fmod K))) p).
        { rewrite map_map. apply map_ext_in. intros r Hr. f_equal. rewrite Forall_forall in Rp. rewrite resize_strip, resize_self; auto. }
        rewrite He. reflexivity.
      + eapply Forall_impl; [|exact Rp]. cbn. intros; lia.
      + apply Forall_map. eapply Forall_impl; [|exact Rp]. cbn. intros r <-. apply strip_length.
    - rewrite Forall_forall in *. intros br Hb. rewrite <- (Hv br Hb). rewrite <- C35_bivariate_evaluation, bipoly_evaluate_rows, <- ev_poly_at.
      rewrite (ev_concat m) by (now apply Forall_forall). destruct (HF br Hb) as [-> _]. reflexivity.
  Qed.
End C76Uni.
Print Assumptions C76_univariate_special_sound.

(** ** C77: the scheme with a structured reference string: two values for one point *)
(** The transcripts for one claimed value: the value, the commitment to p(x, Y), the KZG opening and a tree for the
    argument about the commitments to the rows. *)
Record b_branch (P : pairing) : Type := mk_b_branch {
  bb_e : pK P;
  bb_comm : pG1 P;
  bb_kzg : pG1 P;
  bb_tree : tree (com3 (mod_carrier (pGT P)) (mod_carrier (fmod (pK P))) (identity_output (pG1 P)) *
                  com3 (mod_carrier (pGT P)) (mod_carrier (fmod (pK P))) (identity_output (pG1 P))) (pK P) (pG1 P) (fmod (pK P)) }.
Arguments mk_b_branch {P}.
Arguments bb_e {P}.
Arguments bb_comm {P}.
Arguments bb_kzg {P}.
Arguments bb_tree {P}.

(** [verify D fuel e proof] is the verifier for the commitment and point in question, with digest D.  Every path of the
    tree is part of an accepted opening with the right final key; one accepted opening contains the KZG opening. *)
Definition b_branch_accepted {P : pairing} (verify : (bytes -> bytes) -> nat -> pK P -> opening_proof P -> res bool)
    (ka : list (pG2 P)) (br : b_branch P) : Prop :=
  (exists D fuel proof, op_y_eval_comm proof = bb_comm br /\ op_kzg proof = bb_kzg br /\
     verify D fuel (bb_e br) proof = Ok true) /\
  (forall st cs base, In (st, cs, base) (paths (bb_tree br)) ->
   exists D fuel proof, digest16 D /\ round_challenges D fuel f0 st cs /\ op_y_eval_comm proof = bb_comm br /\
     ts_gipa (op_ip proof) = mk_gipa_proof (rev st) base /\ length ka = 2 ^ length st /\
     ts_final_ck (op_ip proof) = folded_key ka (map finv cs) /\
     verify D fuel (bb_e br) proof = Ok true) /\
  distinct_challenges (bb_tree br).

(** What two branches for different values yield: two lists of row commitments, or a solution of the strong
    Diffie-Hellman problem. *)
Inductive b_break (P : pairing) : Type :=
| BreakRows (x y : list (pG1 P))
| BreakKzg (w : pG1 P).
Arguments BreakRows {P}.
Arguments BreakKzg {P}.

Definition b_break_of {P : pairing} (b1 b2 : b_branch P) : b_break P :=
  match extract1 (bb_tree b1), extract1 (bb_tree b2) with
  | inr w, _ => BreakRows w (zeros w)
  | inl _, inr w => BreakRows w (zeros w)
  | inl a1, inl a2 =>
    if vec_eqb a1 a2 then BreakKzg (finv (bb_e b2 -f bb_e b1) *m (bb_kzg b1 -m bb_kzg b2)) else BreakRows a1 a2
  end.

Section C77.
  Context {R : Type} {P : pairing}.
  Notation K := (pK P).
  Add Field KfC77 : (f_theory (pK P)).
  Variables (E : penv) (HE : 1 <= threads E) (rand : sampler R (pK P)) (r2 : sampler R (pG2 P)).
  Notation lmc := (afgho_g1 P E r2).

  Lemma bpc_verify_parts D fuel v com x y e (proof : opening_proof P) :
    bpc_verify P E D fuel r2 v com (x, y) e proof = Ok true ->
    tssm_verify lmc (identity (pG1 P)) (multiexp_ip (pG1 P)) D fuel E v (tt : unitmod K)
      ((com : mod_carrier (pGT P)), ([op_y_eval_comm proof] : identity_output (pG1 P))) x (op_ip proof) = Ok true /\
    kzg_verify v (op_y_eval_comm proof) y e (op_kzg proof) = Ok true.
  Proof using.
    clear HE. unfold bpc_verify. intros Hv. apply rbind_ok in Hv as [b1 [H1 Hv]]. apply rbind_ok in Hv as [b2 [H2 Hv]].
    assert (Hb : b1 && b2 = true) by congruence. apply andb_true_iff in Hb as [-> ->]. auto.
  Qed.

  Lemma b_branch_ok alpha beta ka com x y (br : b_branch P) :
    b_branch_accepted (fun D fuel e => bpc_verify P E D fuel r2 (key_of alpha beta) com (x, y) e) ka br ->
    kzg_verify (trap_vsrs alpha beta) (bb_comm br) y (bb_e br) (bb_kzg br) = Ok true /\
    match extract1 (bb_tree br) with
    | inl a => length a = length ka /\ dh_commit lmc ka a = Ok com /\ mev a x = bb_comm br
    | inr w => collides lmc ka w (zeros w)
    end.
  Proof using HE.
    intros [[D [fuel [proof [<- [<- Hv]]]]] [Ht Hd]]. apply bpc_verify_parts in Hv as [_ Hk]. split; [exact Hk|].
    pose proof (tssm_special_sound (phi_g1 P) smul lmc (multiexp_ip (pG1 P)) (afgho_g1_law P E HE r2) (multiexp_ip_law _) E alpha beta ka
      (tt : unitmod K) com ([op_y_eval_comm proof] : identity_output (pG1 P)) x (bb_tree br)) as H.
    match type of H with ?A -> _ => assert (HP : A) end.
    { intros st cs base Hin. destruct (Ht st cs base Hin) as [D' [fuel' [proof' [HD [Hr [Hc [Hg [Hl [Hck Hv]]]]]]]]].
      apply bpc_verify_parts in Hv as [Hv _]. exists D', fuel', (op_ip proof'). rewrite <- Hc. auto 10. }
    specialize (H HP Hd). destruct (extract1 (bb_tree br)) as [a|w].
    2:{ replace (zeros w : list (pG1 P)) with (zeros ka : list (pG1 P)); [exact H|]. apply zeros_len. symmetry. apply H. }
    destruct H as [L1 [O1 O2]]. split; [exact L1|]. split; [exact O1|]. change (at_ [op_y_eval_comm proof] 0) with (op_y_eval_comm proof) in O2.
    destruct (C02_multiexp_outcome _ _ a (powers (length ka) x)) as [[He e]|[_ He]]; [exfalso; apply He; etransitivity; [exact L1|symmetry; apply powers_length]|].
    rewrite He in O2. apply Ok_inj in O2. rewrite <- O2, mev_big. unfold msm_sum. rewrite L1. apply big_ext. intros i Hi'. f_equal. symmetry.
    unfold powers. now apply fat_map_seq.
  Qed.

  Lemma b_break_ok alpha beta ka com x y (b1 b2 : b_branch P) : bb_e b1 <> bb_e b2 ->
    b_branch_accepted (fun D fuel e => bpc_verify P E D fuel r2 (key_of alpha beta) com (x, y) e) ka b1 ->
    b_branch_accepted (fun D fuel e => bpc_verify P E D fuel r2 (key_of alpha beta) com (x, y) e) ka b2 ->
    match b_break_of b1 b2 with
    | BreakRows a a' => collides lmc ka a a'
    | BreakKzg w => (alpha -f y) *m w = pr_g P
    end.
  Proof using HE.
    intros Hne H1 H2. apply b_branch_ok in H1 as [K1 H1]. apply b_branch_ok in H2 as [K2 H2]. unfold b_break_of.
    destruct (extract1 (bb_tree b1)) as [a1|w1]; [|exact H1]. destruct (extract1 (bb_tree b2)) as [a2|w2]; [|exact H2].
    destruct H1 as [L1 [C1 Y1]]. destruct H2 as [L2 [C2 Y2]]. destruct (vec_eqb a1 a2) eqn:Ev.
    - apply vec_eqb_spec in Ev. subst a2. rewrite <- Y1 in K1. rewrite <- Y2 in K2. eapply kzg_binding; eauto.
    - split; [|eauto]. intros ->. rewrite (proj2 (vec_eqb_spec a2 a2) eq_refl) in Ev. discriminate.
  Qed.

  (** alpha, the first scalar drawn by the setup, is the trapdoor. *)
  Theorem C77_bivariate_evaluation_binding (rng : R) xd yd s rng' v ka com x y (b1 b2 : b_branch P) :
    bpc_setup P rand rng xd yd = Ok (s, rng') -> get_verifier_key (fst s) = Ok v -> fst (get_commitment_keys (fst s)) = ka ->
    bb_e b1 <> bb_e b2 ->
    b_branch_accepted (fun D fuel e => bpc_verify P E D fuel r2 v com (x, y) e) ka b1 ->
    b_branch_accepted (fun D fuel e => bpc_verify P E D fuel r2 v com (x, y) e) ka b2 ->
    match b_break_of b1 b2 with
    | BreakRows a a' => collides lmc ka a a'
    | BreakKzg w => (fst (rand rng) -f y) *m w = pr_g P
    end.
  Proof using HE.
    intros Hs Hv Hk. destruct (bpc_setup_ok (P := P) rand rng xd yd) as [rng2 Hs2]. rewrite Hs in Hs2. injection Hs2 as -> ->.
    rewrite trap_bsrs_vkey in Hv. injection Hv as <-. apply b_break_ok.
  Qed.

  Theorem C77_univariate_evaluation_binding (rng : R) d s rng' v ka com z (b1 b2 : b_branch P) :
    upc_setup P rand rng d = Ok (s, rng') -> get_verifier_key (fst s) = Ok v -> fst (get_commitment_keys (fst s)) = ka ->
    bb_e b1 <> bb_e b2 ->
    b_branch_accepted (fun D fuel e => upc_verify P E D fuel r2 v d com z e) ka b1 ->
    b_branch_accepted (fun D fuel e => upc_verify P E D fuel r2 v d com z e) ka b2 ->
    match b_break_of b1 b2 with
    | BreakRows a a' => collides lmc ka a a'
    | BreakKzg w => (fst (rand rng) -f z) *m w = pr_g P
    end.
  Proof using HE.
    intros Hs Hv Hk. unfold upc_setup in Hs. apply rbind_ok in Hs as [[xd yd] [Hdeg Hs]].
    destruct (bpc_setup_ok (P := P) rand rng xd yd) as [rng2 Hs2].
    rewrite Hs in Hs2. injection Hs2 as -> ->. rewrite trap_bsrs_vkey in Hv. injection Hv as <-.
    unfold upc_verify. rewrite Hdeg. cbn [rbind]. apply b_break_ok.
  Qed.
End C77.
Print Assumptions C77_bivariate_evaluation_binding.
Print Assumptions C77_univariate_evaluation_binding.

(** Runs: the polynomial 1 + 2z + 3z^2 + 4z^3, key (5, 6) x (7, 8), opened at 3 and at 4 (see [C40_univariate_example]).
    [dig v 2] gives the round challenge 1/v in both arguments. *)
Definition ex76_ck : list ZM * list ZM := (zl [5; 6], zl [7; 8])%Z.
Definition ex76_p : list ZP := zl [1; 2; 3; 4]%Z.
Definition ex76_0 : t_opening_proof ZPair :=
  mk_t_opening (P := ZPair) (mk_gipa_proof (K := ZP) (MA := ZM) (MB := fmod ZP) [] (zq 0, zq 0)) (zq 0)
    (mk_gipa_proof (K := ZP) (MA := fmod ZP) (MB := fmod ZP) [] (zq 0, zq 0)).
Definition ex76 (v : N) (z : Z) : t_opening_proof ZPair :=
  match (do (_, coms) <- tupc_commit ZPair ex_env ex_rand ex_rand ex76_ck ex76_p;
         tupc_open ZPair ex_env (dig v 2) 9 ex_rand ex_rand ex76_ck ex76_p coms (zq z)) with Ok p => p | _ => ex76_0 end.
Definition ex76_step_o z := nth 0 (gp_steps (to_second (ex76 1 z))) (mkcom 0 0 0, mkcom 0 0 0).
Definition ex76_step_i z := nth 0 (gp_steps (to_first (ex76 1 z))) (mkcom 0 0 0, mkcom 0 0 0).
Definition ex76_leaf_o z v : tree (excom * excom) ZP ZM (fmod ZP) := let b := gp_base (to_second (ex76 v z)) in Leaf (fst b) (snd b).
Definition ex76_leaf_i z v : tree (excom * excom) ZP (fmod ZP) (fmod ZP) := let b := gp_base (to_first (ex76 v z)) in Leaf (fst b) (snd b).
Definition ex76_branch (z e : Z) : t_branch ZPair :=
  mk_t_branch (P := ZPair) (zq (z * z)) (zq z) (zq e) (to_y_eval_comm (ex76 1 z))
    (Node (ex76_step_o z) (chal 1) (chal 2) (chal 3) (chal 4) (ex76_leaf_o z 1) (ex76_leaf_o z 2) (ex76_leaf_o z 3) (ex76_leaf_o z 4))
    (Node (ex76_step_i z) (chal 1) (chal 2) (chal 3) (chal 4) (ex76_leaf_i z 1) (ex76_leaf_i z 2) (ex76_leaf_i z 3) (ex76_leaf_i z 4)).

Ltac o76 z v :=
  match goal with |- exists D fuel proof, _ /\ _ /\ to_second _ = mk_gipa_proof ?st ?base =>
    exists (dig v 2), 9, (mk_t_opening (P := ZPair) (mk_gipa_proof (K := ZP) (MA := ZM) (MB := fmod ZP) st base) (to_y_eval_comm (ex76 1 z)) (to_first (ex76 v z))) end;
  split; [split; [apply dig16|split; [reflexivity|vm_compute; reflexivity]]|];
  split; [apply round_challenges_chain; [apply dig16|]; econstructor;
    [vm_compute; reflexivity|exact (chain_nil (K := ZP) (OA := mod_carrier ZM) (OB := mod_carrier (fmod ZP)) (OT := identity_output ZM) _ _ _)]|];
  reflexivity.
Ltac i76 z v :=
  match goal with |- exists D fuel proof, _ /\ _ /\ to_first _ = mk_gipa_proof ?st ?base =>
    exists (dig v 2), 9, (mk_t_opening (P := ZPair) (to_second (ex76 v z)) (to_y_eval_comm (ex76 1 z)) (mk_gipa_proof (K := ZP) (MA := fmod ZP) (MB := fmod ZP) st base)) end;
  split; [split; [apply dig16|split; [reflexivity|vm_compute; reflexivity]]|];
  split; [apply round_challenges_chain; [apply dig16|]; econstructor;
    [vm_compute; reflexivity|exact (chain_nil (K := ZP) (OA := mod_carrier ZM) (OB := mod_carrier (fmod ZP)) (OT := identity_output (fmod ZP)) _ _ _)]|];
  reflexivity.
Ltac distinct76 := unfold ex76_branch; cbn [tb_outer tb_inner]; split; [|cbn; auto];
  repeat constructor; cbn [In]; intros Hin; repeat destruct Hin as [Hin|Hin]; try contradiction; vm_compute in Hin; discriminate.
Ltac branch76 z :=
  split; [vm_compute; reflexivity|]; split; [|split; [|split; once distinct76]];
  unfold ex76_branch, ex76_leaf_o, ex76_leaf_i; cbn [tb_outer tb_inner tb_x tb_y tb_e tb_comm];
  intros st cs base Hin; cbn [paths map app fst snd In] in Hin; destruct Hin as [Hin|[Hin|[Hin|[Hin|[]]]]]; apply triple_inj in Hin as [<- [<- <-]];
  [o76 z 1%N|o76 z 2%N|o76 z 3%N|o76 z 4%N|i76 z 1%N|i76 z 2%N|i76 z 3%N|i76 z 4%N].

Example C76_hypotheses :
  match tupc_setup ZPair ex_env ex_rand ex_rand 5%Z 3 with
  | Ok ([k1; k2], [l1; l2], _) => zp_eqb k1 (zq 5) && zp_eqb k2 (zq 6) && zp_eqb l1 (zq 7) && zp_eqb l2 (zq 8)
  | _ => false
  end = true /\
  NoDup (map tb_x [ex76_branch 3 142; ex76_branch 4 313]) /\
  Forall (t_uni_accepted (P := ZPair) ex_env1 ex_rand ex_rand ex76_ck (zq 431)) [ex76_branch 3 142; ex76_branch 4 313] /\
  Forall (t_branch_accepted (P := ZPair) ex_env1 ex_rand ex_rand ex76_ck (zq 431)) [ex76_branch 3 142; ex76_branch 4 313].
Proof.
  split; [vm_compute; reflexivity|]. split.
  { repeat constructor; cbn [In]; intros Hin; repeat destruct Hin as [Hin|Hin]; try contradiction; vm_compute in Hin; discriminate. }
  assert (H : Forall (t_uni_accepted (P := ZPair) ex_env1 ex_rand ex_rand ex76_ck (zq 431)) [ex76_branch 3 142; ex76_branch 4 313]).
  { constructor; [branch76 3%Z|constructor; [branch76 4%Z|constructor]]. }
  split; [exact H|]. eapply Forall_impl; [|exact H]. intros br. apply uni_branch; cbn; lia.
Qed.
(** the extractor finds (1 + 2Y) + (3 + 4Y) X *)
Example C76_example :
  match t_extract (P := ZPair) 2 2 [ex76_branch 3 142; ex76_branch 4 313] with
  | inl [[a; b]; [c; d]] => zp_eqb a (zq 1) && zp_eqb b (zq 2) && zp_eqb c (zq 3) && zp_eqb d (zq 4)
  | _ => false
  end = true.
Proof. vm_compute. reflexivity. Qed.

(** alpha = 5, beta = 6: the polynomial above, opened at 3 honestly to 142 and, with the trapdoor, to 7. *)
Definition ex77_s : srs ZPair * list ZM :=
  (mk_srs (P := ZPair) [zq 1] (zl [1; 6; 36]%Z) (zq 6) (zq 5), zl [1; 5]%Z).
Definition ex77_v : vsrs ZPair := mk_vsrs (P := ZPair) (zq 1) (zq 1) (zq 6) (zq 5).
Definition ex77_0 : opening_proof ZPair :=
  mk_opening (P := ZPair) (mk_tssm_proof (P := ZPair) (mk_gipa_proof (K := ZP) (MA := ZM) (MB := fmod ZP) [] (zq 0, zq 0)) (zq 0) (zq 0)) (zq 0) (zq 0).
Definition ex77 (v : N) : opening_proof ZPair :=
  match (do (_, coms) <- upc_commit ZPair ex_env ex_rand ex77_s ex76_p;
         upc_open ZPair ex_env (dig v 2) 9 ex_rand ex77_s ex76_p coms (zq 3)) with Ok p => p | _ => ex77_0 end.
Definition ex77_kzg (e : Z) : ZM :=
  finv (zq 2 : ZP) *m (op_y_eval_comm (ex77 1) -m (zq e : ZP) *m (zq 1 : ZM)).
Definition ex77_leaf v : tree (excom * excom) ZP ZM (fmod ZP) := let b := gp_base (ts_gipa (op_ip (ex77 v))) in Leaf (fst b) (snd b).
Definition ex77_branch (e : Z) : b_branch ZPair :=
  mk_b_branch (P := ZPair) (zq e) (op_y_eval_comm (ex77 1)) (ex77_kzg e)
    (Node (nth 0 (gp_steps (ts_gipa (op_ip (ex77 1)))) (mkcom 0 0 0, mkcom 0 0 0)) (chal 1) (chal 2) (chal 3) (chal 4)
       (ex77_leaf 1) (ex77_leaf 2) (ex77_leaf 3) (ex77_leaf 4)).
Ltac path77 e v :=
  match goal with |- exists D fuel proof, _ /\ _ /\ _ /\ ts_gipa _ = mk_gipa_proof ?st ?base /\ _ /\ _ = ?ck /\ _ =>
    exists (dig v 2), 9, (mk_opening (P := ZPair) (mk_tssm_proof (P := ZPair) (mk_gipa_proof (K := ZP) (MA := ZM) (MB := fmod ZP) st base) ck
      (ts_final_ck_proof (op_ip (ex77 v)))) (op_y_eval_comm (ex77 1)) (ex77_kzg e)) end;
  split; [apply dig16|];
  split; [apply round_challenges_chain; [apply dig16|]; econstructor;
    [vm_compute; reflexivity|exact (chain_nil (K := ZP) (OA := mod_carrier ZM) (OB := mod_carrier (fmod ZP)) (OT := identity_output ZM) _ _ _)]|];
  split; [reflexivity|split; [reflexivity|split; [reflexivity|split; [reflexivity|vm_compute; reflexivity]]]].
Ltac distinct77 := unfold ex77_branch; cbn [bb_tree]; split; [|cbn; auto];
  repeat constructor; cbn [In]; intros Hin; repeat destruct Hin as [Hin|Hin]; try contradiction; vm_compute in Hin; discriminate.
Ltac branch77 e :=
  split; [exists (dig 1 2), 9, (mk_opening (P := ZPair) (op_ip (ex77 1)) (op_y_eval_comm (ex77 1)) (ex77_kzg e));
          split; [reflexivity|split; [reflexivity|vm_compute; reflexivity]]|];
  split; [|once distinct77]; unfold ex77_branch, ex77_leaf; cbn [bb_tree bb_e bb_comm bb_kzg];
  intros st cs base Hin; cbn [paths map app fst snd In] in Hin; destruct Hin as [Hin|[Hin|[Hin|[Hin|[]]]]]; apply triple_inj in Hin as [<- [<- <-]];
  [path77 e 1%N|path77 e 2%N|path77 e 3%N|path77 e 4%N].
Definition ex77_verify D fuel e proof := upc_verify ZPair ex_env1 D fuel ex_rand ex77_v 3 (zq 839) (zq 3) e proof.
Definition ex77_biverify D fuel e proof := bpc_verify ZPair ex_env1 D fuel ex_rand ex77_v (zq 839) (zq 9, zq 3) e proof.

Example C77_hypotheses :
  (bpc_setup ZPair ex_scalars 5%Z 1 1 = Ok (ex77_s, 7%Z)) /\ get_verifier_key (fst ex77_s) = Ok ex77_v /\
  fst (get_commitment_keys (fst ex77_s)) = zl [1; 36]%Z /\
  b_branch_accepted (P := ZPair) ex77_verify (zl [1; 36]%Z) (ex77_branch 142) /\
  b_branch_accepted (P := ZPair) ex77_verify (zl [1; 36]%Z) (ex77_branch 7) /\
  b_branch_accepted (P := ZPair) ex77_biverify (zl [1; 36]%Z) (ex77_branch 142) /\
  b_branch_accepted (P := ZPair) ex77_biverify (zl [1; 36]%Z) (ex77_branch 7).
Proof.
  split; [reflexivity|]. split; [reflexivity|]. split; [reflexivity|].
  split; [branch77 142%Z|]. split; [branch77 7%Z|]. split; [branch77 142%Z|branch77 7%Z].
Qed.
(** the break is 1 / (alpha - 3) *)
Example C77_example :
  match b_break_of (ex77_branch 142) (ex77_branch 7) with
  | BreakKzg w => zp_eqb ((zq 2 : ZP) *m (w : ZM)) (zq 1)
  | _ => false
  end = true.
Proof. vm_compute. reflexivity. Qed.

(** Property C109: at which points one given proof is accepted. *)
Require Import List Arith NArith ZArith Lia Bool Field.
Import ListNotations.
Require Import Verif.Outcome Verif.Algebra Verif.Zp Verif.Rust Verif.InnerProducts Verif.Commitments
  Verif.Gipa Verif.Poly Verif.Tipa Verif.Ssm Verif.Floats Verif.PolyCommit Verif.Transparent Verif.Spec Verif.ListFacts
  Verif.RustFacts Verif.InnerProductFacts Verif.CommitFacts Verif.GipaFacts Verif.GipaComplete Verif.GipaTop
  Verif.SerFacts Verif.PolyFacts Verif.KeyFacts Verif.TipaFacts Verif.SsmFacts Verif.FloatFacts Verif.PcFacts Verif.PcDegrees
  Verif.UpcFacts Verif.TransparentFacts Verif.VerifyFacts Verif.SpecialFacts Verif.RootFacts
  Verif.PropsBase Verif.PropsGipa Verif.PropsTipa Verif.PropsSsm Verif.PropsPoly Verif.PropsVerify Verif.PropsPcVerify
  Verif.PropsForkingTwo Verif.PropsMalleable.

(** ** The folded power vector is a polynomial of degree 2^n - 1 in the scalar *)
Section Folded.
  Context {K : field}.
  Add Field KfPts : (f_theory K).

  Lemma folded_neq0_inv (cs : list K) : Forall (fun c => c <> f0) cs -> Forall (fun c => c <> f0) (map finv (rev cs)).
  Proof.
    intros H. apply Forall_map. apply Forall_rev. eapply Forall_impl; [|exact H]. intros c Hc. cbn. now apply finv_neq0.
  Qed.

  Lemma folded_powers_roots (cs : list K) (w : K) (bs : list K) : cs <> [] -> Forall (fun c => c <> f0) cs -> NoDup bs ->
    (forall b, In b bs -> folded_powers cs b = w) -> length bs <= 2 ^ length cs - 1.
  Proof.
    intros Hne Hnz Hnd Hb. pose proof (folded_neq0_inv cs Hnz) as Hi. pose proof (subs_neq0 _ Hi) as Hs.
    pose proof (subs_length (map finv (rev cs))) as Hl. rewrite map_length, rev_length in Hl.
    assert (Hn : 2 <= 2 ^ length cs).
    { destruct cs as [|c cs']; [congruence|]. cbn [length Nat.pow]. pose proof (pow2_pos (length cs')). lia. }
    destruct (subs (map finv (rev cs))) as [|s0 [|s1 sr]] eqn:Es; cbn [length] in Hl; try lia.
    assert (H : length bs <= length ((s0 -f w) :: s1 :: sr) - 1).
    { apply (roots_bound (M := fmod K)); [exact Hnd| |].
      - exists s1. split; [right; now left|]. inversion Hs as [|? ? _ H2]; subst. now inversion H2.
      - intros b Hin. rewrite mev_ev. specialize (Hb b Hin). rewrite <- folded_powers_eq in Hb. rewrite Es in Hb.
        cbn [poly_evaluate fold_right] in *. rewrite <- Hb.
        match goal with |- ?s -f (?s +f ?t) +f ?t = _ => set (u := t) end. change (s0 -f (s0 +f u) +f u = f0). ring. }
    cbn [length] in *. lia.
  Qed.
End Folded.


Section Few.
  Context {P : pairing}.
  Notation K := (pK P).
  Variables (D : bytes -> bytes) (fuel : nat) (HD : digest16 D).
  Lemma few_folded {M : module K} {OA OB OT : carrier K} (steps : list (com3 OA OB OT * com3 OA OB OT)) (a : M) (V : list K -> M) (bs : list K) :
    a <> m0 -> NoDup bs -> steps <> [] ->
    (forall b, In b bs -> exists cs, round_challenges D fuel f0 (rev steps) cs /\ folded_powers cs b *m a = V cs) ->
    length bs <= 2 ^ length steps - 1.
  Proof using HD.
    intros Ha Hnd Hne H. destruct bs as [|b0 bs]; [cbn; lia|]. destruct (H b0 (in_eq _ _)) as [cs [Hcs H0]].
    pose proof (proj1 (round_challenges_chain D fuel HD _ _ _) Hcs) as Hch.
    pose proof (chain_length _ _ _ _ _ Hch) as Hl. rewrite rev_length in Hl. rewrite <- Hl.
    apply (folded_powers_roots cs (folded_powers cs b0)); [|eapply chain_nonzero; eauto|exact Hnd|].
    - intros ->. destruct steps; [congruence|discriminate Hl].
    - intros b Hb. apply (mscale_free _ _ _ Ha). destruct (H b Hb) as [cs' [Hcs' H1]].
      assert (cs' = cs) as -> by (eapply round_challenges_fun; eauto). now rewrite H0, H1.
  Qed.
End Few.

(** ** TIPAWithSSM and GIPAWithSSM *)
Section Scalars.
  Context {R : Type} {P : pairing}.
  Notation K := (pK P).
  Variables (E : penv) (HE : 1 <= threads E) (D : bytes -> bytes) (fuel : nat) (HD : digest16 D).
  Variables (rand_g2 : sampler R (pG2 P)).

  (** A proof accepted for [b] is accepted for [b'] exactly if the folded powers of both multiply the base message to the same. *)
  Theorem C109_tipa_other_scalar alpha beta (kt : unitmod K) ca ct b b' proof :
    let a := fst (gp_base (ts_gipa proof)) in
    let verify x := tssm_verify (afgho_g1 P E rand_g2) (identity (pG1 P)) (multiexp_ip (pG1 P)) D fuel E (key_of alpha beta) kt (ca, ct) x proof in
    verify b = Ok true ->
    (verify b' = Ok true <->
     a = m0 \/ exists cs, round_challenges D fuel f0 (rev (gp_steps (ts_gipa proof))) cs /\ folded_powers cs b' = folded_powers cs b).
  Proof using HE HD.
    intros a verify Hb.
    pose proof (C54_multiexp_instance R P E rand_g2 D fuel alpha beta kt ca ct b proof HE HD) as I. cbv zeta in I.
    pose proof (C54_multiexp_instance R P E rand_g2 D fuel alpha beta kt ca ct b' proof HE HD) as I'. cbv zeta in I'.
    destruct (proj1 I Hb) as [cs [z [H1 [H2 [H3 [H4 [H5 [H6 H7]]]]]]]]. split.
    - intros Hb'. destruct (proj1 I' Hb') as [cs' [z' [H1' [_ [_ [_ [_ [_ H7']]]]]]]].
      assert (cs' = cs) as -> by (eapply round_challenges_fun; eauto).
      destruct (m_eq_dec _ _ a m0) as [Ha|Ha]; [now left|right]. exists cs. split; [exact H1|].
      apply (mscale_free _ _ a Ha). unfold a. now rewrite H7, H7'.
    - intros H. apply I'. exists cs, z. do 6 (split; [assumption|]). rewrite <- H7. destruct H as [Ha|[cs' [H1' He]]].
      + fold a. now rewrite Ha, !mscale_0_r.
      + assert (cs' = cs) as -> by (eapply round_challenges_fun; eauto). now rewrite He.
  Qed.

  (** A proof with n rounds is accepted for all scalars or for at most 2^n - 1 of them. *)
  Theorem C109_tipa_scalars alpha beta (kt : unitmod K) ca ct (bs : list K) proof :
    let verify x := tssm_verify (afgho_g1 P E rand_g2) (identity (pG1 P)) (multiexp_ip (pG1 P)) D fuel E (key_of alpha beta) kt (ca, ct) x proof in
    NoDup bs -> bs <> [] -> (forall b, In b bs -> verify b = Ok true) ->
    (fst (gp_base (ts_gipa proof)) = m0 /\ forall b, verify b = Ok true) \/
    (fst (gp_base (ts_gipa proof)) <> m0 /\ length bs <= 2 ^ length (gp_steps (ts_gipa proof)) - 1).
  Proof using HE HD.
    intros verify Hnd Hne H. destruct (m_eq_dec _ _ (fst (gp_base (ts_gipa proof))) m0) as [Ha|Ha]; [left|right]; (split; [exact Ha|]).
    - destruct bs as [|b0 bs]; [congruence|]. intros b. pose proof (C109_tipa_other_scalar alpha beta kt ca ct b0 b proof (H b0 (in_eq _ _))) as I.
      apply (proj2 I). now left.
    - apply (few_folded D fuel HD (gp_steps (ts_gipa proof)) _ (folded (fun c => at_ (com_vec c) 0) (at_ ct 0) (ts_gipa proof)) bs Ha Hnd).
      + destruct bs as [|b0 bs]; [congruence|].
        pose proof (C54_multiexp_instance R P E rand_g2 D fuel alpha beta kt ca ct b0 proof HE HD) as I. cbv zeta in I.
        destruct (proj1 I (H b0 (in_eq _ _))) as [cs [z [H1 [H2 _]]]]. intros Hs. rewrite Hs in H1. destruct cs; [congruence|exact H1].
      + intros b Hb. pose proof (C54_multiexp_instance R P E rand_g2 D fuel alpha beta kt ca ct b proof HE HD) as I. cbv zeta in I.
        destruct (proj1 I (H b Hb)) as [cs [z [H1 [H2 [_ [_ [_ [_ H7]]]]]]]]. now exists cs.
  Qed.

  (** GIPAWithSSM: the same for every proof with at least one round. *)
  Theorem C109_gipa_scalars ka (kt : unitmod K) ca ct (bs : list K) proof :
    let verify x := gssm_verify (afgho_g1 P E rand_g2) (identity (pG1 P)) (multiexp_ip (pG1 P)) D fuel E (ka, kt) (ca, ct) x proof in
    2 <= length ka -> NoDup bs -> bs <> [] -> (forall b, In b bs -> verify b = Ok true) ->
    (fst (gp_base proof) = m0 /\ forall b, verify b = Ok true) \/
    (fst (gp_base proof) <> m0 /\ length bs <= length ka - 1).
  Proof using HE HD.
    intros verify Hk Hnd Hne H.
    assert (Hi : forall b, _) by (intros b; pose proof (C55_multiexp_instance R P E rand_g2 D fuel ka kt ca ct b proof HE HD) as I; cbv zeta in I; exact I).
    destruct (m_eq_dec _ _ (fst (gp_base proof)) m0) as [Ha|Ha]; [left|right]; (split; [exact Ha|]).
    - destruct bs as [|b0 bs]; [congruence|]. intros b. apply Hi. destruct (proj1 (Hi b0) (H b0 (in_eq _ _))) as [cs [H1 [H2 [H3 [H4 [H5 [H6 H7]]]]]]].
      exists cs. do 6 (split; [assumption|]). rewrite <- H7, Ha, !mscale_0_r. reflexivity.
    - destruct bs as [|b0 bs]; [congruence|]. destruct (proj1 (Hi b0) (H b0 (in_eq _ _))) as [_ [_ [Hl _]]]. rewrite Hl.
      apply (few_folded D fuel HD (gp_steps proof) _ (folded (fun c => at_ (com_vec c) 0) (at_ ct 0) proof) _ Ha Hnd).
      + intros Hs. rewrite Hs in Hl. cbn in Hl. lia.
      + intros b Hb. destruct (proj1 (Hi b) (H b Hb)) as [cs [H1 [_ [_ [_ [_ [_ H7]]]]]]]. now exists cs.
  Qed.
End Scalars.
Print Assumptions C109_tipa_other_scalar.
Print Assumptions C109_tipa_scalars.
Print Assumptions C109_gipa_scalars.

(** ** Polynomial commitments *)
Section Openings.
  Context {R : Type} {P : pairing}.
  Notation K := (pK P).
  Add Field KfOpn : (f_theory (pK P)).
  Variables (E : penv) (HE : 1 <= threads E) (D : bytes -> bytes) (fuel : nat) (HD : digest16 D).
  Variables (rand_g1 : sampler R (pG1 P)) (rand_g2 : sampler R (pG2 P)).

  Lemma kzg_one_point alpha (Y : pG1 P) (y y' e : K) w : w <> m0 -> kzg_condition alpha Y y e w -> kzg_condition alpha Y y' e w -> y' = y.
  Proof.
    unfold kzg_condition. intros Hw H H'. rewrite H in H'. apply (mscale_free _ _ w Hw) in H'.
    replace y' with (alpha -f (alpha -f y')) by ring. rewrite <- H'. ring.
  Qed.

  Lemma rows_rounds beta com Y (x : K) ip : rows_argument_holds D fuel beta com Y x ip -> gp_steps (ts_gipa ip) <> [].
  Proof. intros [cs [z [H1 [H2 _]]]] Hs. rewrite Hs in H1. destruct cs; [congruence|exact H1]. Qed.

  Lemma rows_few beta com Y (xs : list K) ip : fst (gp_base (ts_gipa ip)) <> m0 -> NoDup xs ->
    (forall x, In x xs -> rows_argument_holds D fuel beta com Y x ip) -> length xs <= 2 ^ length (gp_steps (ts_gipa ip)) - 1.
  Proof using HD.
    clear HE. intros Ha Hnd H. destruct xs as [|x0 xs]; [cbn; lia|]. pose proof (rows_rounds _ _ _ _ _ (H x0 (in_eq _ _))) as Hs.
    apply (few_folded D fuel HD (gp_steps (ts_gipa ip)) _ (folded (fun c => at_ (com_vec c) 0) Y (ts_gipa ip)) _ Ha Hnd Hs).
    intros x Hx. destruct (H x Hx) as [cs [z [H1 [_ [_ [_ [_ [_ H7]]]]]]]]. now exists cs.
  Qed.

  (** One opening and one value, two elements of which are not zero: accepted at points with one y only, and at most 2^n - 1 of them. *)
  Theorem C109_bivariate alpha beta com e (proof : opening_proof P) (pts : list (K * K)) :
    NoDup pts -> (forall p, In p pts -> bpc_verify P E D fuel rand_g2 (key_of alpha beta) com p e proof = Ok true) ->
    op_kzg proof <> m0 -> fst (gp_base (ts_gipa (op_ip proof))) <> m0 ->
    (forall p q, In p pts -> In q pts -> snd p = snd q) /\ length pts <= 2 ^ length (gp_steps (ts_gipa (op_ip proof))) - 1.
  Proof using HE HD.
    intros Hnd H Hw Ha.
    assert (H' : forall x y, In (x, y) pts -> rows_argument_holds D fuel beta com (op_y_eval_comm proof) x (op_ip proof) /\
       kzg_condition alpha (op_y_eval_comm proof) y e (op_kzg proof)).
    { intros x y Hp. now apply (C58_bivariate_accepts_iff E HE D fuel HD rand_g2), H. }
    assert (Hy : forall p q, In p pts -> In q pts -> snd p = snd q).
    { intros [x y] [x' y'] Hp Hq. cbn. eapply kzg_one_point; [exact Hw|exact (proj2 (H' _ _ Hq))|exact (proj2 (H' _ _ Hp))]. }
    split; [exact Hy|]. rewrite <- (map_length fst). apply (rows_few beta com (op_y_eval_comm proof)); [exact Ha| |].
    - clear - Hnd Hy. induction pts as [|p pts IH]; [constructor|]. inversion Hnd as [|? ? Hn Hnd']; subst. cbn. constructor.
      + intros Hin. apply in_map_iff in Hin as [q [Hq Hin]]. apply Hn. replace p with q; [exact Hin|].
        destruct p as [x y], q as [x' y']. cbn in Hq. pose proof (Hy (x, y) (x', y') (in_eq _ _) (in_cons _ _ _ Hin)) as Hs. cbn in Hs. congruence.
      + apply IH; [exact Hnd'|]. intros u v Hu Hv. apply Hy; now right.
    - intros x Hx. apply in_map_iff in Hx as [[x' y] [Hq Hin]]. cbn in Hq. subst. exact (proj1 (H' _ _ Hin)).
  Qed.

  (** Univariate: one point, unless the KZG proof is zero; then at most (2^n - 1)(y_degree + 1) points. *)
  Lemma upc_conditions (rng : sampler R K) (r : R) d s r' v : 1 <= d -> (Z.of_nat d < 2 ^ 52)%Z ->
    upc_setup P rng r d = Ok (s, r') -> get_verifier_key (fst s) = Ok v ->
    exists alpha beta xd, bivariate_degrees 32 16 d = Ok (xd, length (snd s) - 1) /\ 2 <= length (snd s) /\ v = key_of alpha beta.
  Proof.
    clear HE. intros Hd Hlt Hs Hv. destruct (upc_setup_ok (P := P) rng r d Hd Hlt) as [xd [yd [r2 [Hdeg Hs2]]]].
    rewrite Hs in Hs2. injection Hs2 as -> ->.
    rewrite trap_bsrs_vkey in Hv. injection Hv as <-.
    exists (fst (rng r)), (fst (rng (snd (rng r)))), xd. unfold trap_bsrs. cbn [fst snd]. rewrite kzg_powers_length.
    destruct (degrees_split 4 d ltac:(lia) Hd Hlt) as [k [k' [xd' [yd' [H [_ [Hy _]]]]]]].
    change (2 * 2 ^ 4) with 32 in H. change (2 ^ 4) with 16 in H. rewrite Hdeg in H. injection H as <- <-.
    replace (yd + 1 - 1) with yd by lia. split; [exact Hdeg|]. split; [|reflexivity].
    cbn [Nat.pow] in Hy. pose proof (pow2_pos k'). lia.
  Qed.

  Theorem C109_univariate (rng : sampler R K) (r : R) d s r' v com e (proof : opening_proof P) (zs : list K) :
    1 <= d -> (Z.of_nat d < 2 ^ 52)%Z -> upc_setup P rng r d = Ok (s, r') -> get_verifier_key (fst s) = Ok v ->
    NoDup zs -> (forall z, In z zs -> upc_verify P E D fuel rand_g2 v d com z e proof = Ok true) ->
    (op_kzg proof <> m0 -> length zs <= 1) /\
    (fst (gp_base (ts_gipa (op_ip proof))) <> m0 -> length zs <= (2 ^ length (gp_steps (ts_gipa (op_ip proof))) - 1) * length (snd s)).
  Proof using HE HD.
    intros Hd Hlt Hs Hv Hnd H. destruct (upc_conditions rng r d s r' v Hd Hlt Hs Hv) as [alpha [beta [xd [Hdeg [Hl ->]]]]].
    assert (H' : forall z, In z zs -> rows_argument_holds D fuel beta com (op_y_eval_comm proof) (fpow z (length (snd s))) (op_ip proof) /\
       kzg_condition alpha (op_y_eval_comm proof) z e (op_kzg proof)).
    { intros z Hz. specialize (H z Hz). unfold upc_verify in H. rewrite Hdeg in H. cbn [rbind] in H.
      replace (length (snd s) - 1 + 1) with (length (snd s)) in H by lia. now apply (C58_bivariate_accepts_iff E HE D fuel HD rand_g2). }
    split.
    - intros Hw. destruct zs as [|z0 [|z1 zs]]; [cbn; lia|cbn; lia|]. exfalso.
      inversion Hnd as [|? ? Hn _]; subst. apply Hn. left.
      eapply kzg_one_point; [exact Hw|exact (proj2 (H' z0 (in_eq _ _)))|exact (proj2 (H' z1 (in_cons _ _ _ (in_eq _ _))))].
    - intros Ha. set (xs := nodup (f_eq_dec K) (map (fun z => fpow z (length (snd s))) zs)).
      assert (Hx : length xs <= 2 ^ length (gp_steps (ts_gipa (op_ip proof))) - 1).
      { apply (rows_few beta com (op_y_eval_comm proof)); [exact Ha|apply NoDup_nodup|]. intros x Hx. unfold xs in Hx.
        apply nodup_In, in_map_iff in Hx as [z [<- Hz]]. exact (proj1 (H' z Hz)). }
      etransitivity; [apply (classes_bound zs xs (length (snd s))); [lia|exact Hnd|]|apply Nat.mul_le_mono_r; exact Hx].
      intros z Hz. unfold xs. apply nodup_In. apply in_map_iff. now exists z.
  Qed.

  (** The verifier called with another maximal degree accepts exactly if the folded powers of z^(y_degree + 1) agree. *)
  Theorem C109_other_degree (alpha beta : K) com z e (proof : opening_proof P) d d' xd yd xd' yd' :
    bivariate_degrees 32 16 d = Ok (xd, yd) -> bivariate_degrees 32 16 d' = Ok (xd', yd') ->
    upc_verify P E D fuel rand_g2 (key_of alpha beta) d com z e proof = Ok true ->
    (upc_verify P E D fuel rand_g2 (key_of alpha beta) d' com z e proof = Ok true <->
     fst (gp_base (ts_gipa (op_ip proof))) = m0 \/
     exists cs, round_challenges D fuel f0 (rev (gp_steps (ts_gipa (op_ip proof)))) cs /\
       folded_powers cs (fpow z (yd' + 1)) = folded_powers cs (fpow z (yd + 1))).
  Proof using HE HD.
    intros Hd Hd' H. unfold upc_verify in *. rewrite Hd in H. rewrite Hd'. cbn [rbind] in *.
    apply (C58_bivariate_accepts_iff E HE D fuel HD rand_g2) in H as [[cs [w [H1 [H2 [H3 [H4 [H5 [H6 H7]]]]]]]] Hk].
    rewrite (C58_bivariate_accepts_iff E HE D fuel HD rand_g2). split.
    - intros [[cs' [w' [H1' [_ [_ [_ [_ [_ H7']]]]]]]] _].
      assert (cs' = cs) as -> by (eapply round_challenges_fun; eauto).
      destruct (m_eq_dec _ _ (fst (gp_base (ts_gipa (op_ip proof)))) m0) as [Ha|Ha]; [now left|right]. exists cs. split; [exact H1|].
      apply (mscale_free _ _ _ Ha). now rewrite H7, H7'.
    - intros Ho. split; [|exact Hk]. exists cs, w. do 6 (split; [assumption|]). rewrite <- H7. destruct Ho as [Ha|[cs' [H1' He]]].
      + now rewrite Ha, !mscale_0_r.
      + assert (cs' = cs) as -> by (eapply round_challenges_fun; eauto). now rewrite He.
  Qed.

  (** Transparent setup. *)
  Theorem C109_transparent ck1 ck2 com e (proof : t_opening_proof P) (zs : list K) :
    2 <= length ck1 -> 2 <= length ck2 -> NoDup zs ->
    (forall z, In z zs -> tupc_verify P E D fuel rand_g1 rand_g2 (ck1, ck2) com z e proof = Ok true) ->
    (fst (gp_base (to_first proof)) <> f0 -> length zs <= length ck1 - 1) /\
    (fst (gp_base (to_second proof)) <> m0 -> length zs <= (length ck2 - 1) * length ck1).
  Proof using HE HD.
    intros Hk1 Hk2 Hnd H.
    assert (H' : forall z, In z zs -> outer_argument_holds D fuel ck2 com (to_y_eval_comm proof) (fpow z (length ck1)) (to_second proof) /\
       inner_argument_holds D fuel ck1 (to_y_eval_comm proof) e z (to_first proof)).
    { intros z Hz. now apply (C59_transparent_univariate_accepts_iff E HE D fuel HD rand_g1 rand_g2), H. }
    destruct zs as [|z0 zs0] eqn:Ez; [split; intros; apply Nat.le_0_l|]. rewrite <- Ez in *.
    destruct (H' z0 ltac:(rewrite Ez; apply in_eq)) as [[cs2 [_ [Hl2 _]]] [cs1 [_ [Hl1 _]]]]. split.
    - intros Ha. rewrite Hl1.
      apply (few_folded D fuel HD (M := fmod K) (gp_steps (to_first proof)) (fst (gp_base (to_first proof)))
               (folded (fun c => at_ (com_vec c) 0) (e : fmod K) (to_first proof)) zs Ha Hnd).
      + intros Hs. rewrite Hs in Hl1. cbn in Hl1. lia.
      + intros z Hz. destruct (proj2 (H' z Hz)) as [cs [H1 [_ [_ [_ [_ [_ H7]]]]]]]. exists cs. split; [exact H1|]. rewrite <- H7.
        change (folded_powers cs z *f fst (gp_base (to_first proof)) = fst (gp_base (to_first proof)) *f folded_powers cs z). ring.
    - intros Ha. set (xs := nodup (f_eq_dec K) (map (fun z => fpow z (length ck1)) zs)).
      assert (Hx : length xs <= length ck2 - 1).
      { rewrite Hl2. apply (few_folded D fuel HD (gp_steps (to_second proof)) _ (folded (fun c => at_ (com_vec c) 0) (to_y_eval_comm proof) (to_second proof)) xs Ha
                 (NoDup_nodup _ _)).
        - intros Hs. rewrite Hs in Hl2. cbn in Hl2. lia.
        - intros x Hx. unfold xs in Hx. apply nodup_In, in_map_iff in Hx as [z [<- Hz]].
          destruct (proj1 (H' z Hz)) as [cs [H1 [_ [_ [_ [_ [_ H7]]]]]]]. now exists cs. }
      etransitivity; [apply (classes_bound zs xs (length ck1)); [lia|exact Hnd|]|apply Nat.mul_le_mono_r; exact Hx].
      intros z Hz. unfold xs. apply nodup_In. apply in_map_iff. now exists z.
  Qed.
End Openings.
Print Assumptions C109_bivariate.
Print Assumptions C109_univariate.
Print Assumptions C109_other_degree.
Print Assumptions C109_transparent.

(** The proof of [ex_tssm_run] for b = 6 has two rounds and is accepted for 6, 26 and 66: as many as the bound allows. *)
Example C109_scalars_example :
  map (fun b => ex_tssm_run (zq 6) (zq b)) [6; 26; 66; 7]%Z = [Ok true; Ok true; Ok true; Ok false].
Proof. vm_compute. reflexivity. Qed.

(** An opening at [z] verified at [z'] with the maximal degree [d']: 142 = 1 + 2 * 3 + 3 * 9 + 4 * 27; the degrees 2 and 3 split the same
    way, 15 does not; 5 X^2 has the KZG proof zero and the same value at 3 and -3; the proof for the zero polynomial is
    accepted everywhere. *)
Definition ex_degree (d d' : nat) (p : list Z) (z e z' : Z) : res bool :=
  do (s, _) <- upc_setup ZPair ex_scalars 5%Z d;
  do v <- get_verifier_key (fst s);
  do (com, coms) <- upc_commit ZPair ex_env ex_rand s (zl p);
  do proof <- upc_open ZPair ex_env toy_digest 9 ex_rand s (zl p) coms (zq z);
  upc_verify ZPair ex_env1 toy_digest 9 ex_rand v d' com (zq z') (zq e) proof.
Example C109_degree_example :
  ex_degree 3 3 [1; 2; 3; 4]%Z 3 142 3 = Ok true /\ ex_degree 3 2 [1; 2; 3; 4]%Z 3 142 3 = Ok true /\
  ex_degree 3 15 [1; 2; 3; 4]%Z 3 142 3 = Ok false /\ ex_degree 3 3 [1; 2; 3; 4]%Z 3 142 4 = Ok false /\
  ex_degree 3 3 [0; 0; 5]%Z 3 45 (-3) = Ok true /\ ex_degree 3 3 [0; 0; 5]%Z 3 45 4 = Ok false /\
  ex_degree 3 15 [0]%Z 3 0 9 = Ok true.
Proof. vm_compute. repeat split; reflexivity. Qed.

Definition ex_tupc_points (p : list Z) (z e : Z) : res (list Z) :=
  do (ck, _) <- tupc_setup ZPair ex_env ex_rand ex_rand 5%Z 3;
  do (com, coms) <- tupc_commit ZPair ex_env ex_rand ex_rand ck (zl p);
  do proof <- tupc_open ZPair ex_env toy_digest 9 ex_rand ex_rand ck (zl p) coms (zq z);
  Ok (filter (fun z' => match tupc_verify ZPair ex_env1 toy_digest 9 ex_rand ex_rand ck com (zq z') (zq e) proof with Ok t => t | _ => false end)
        [1; 2; 3; 4; 98]%Z).
Example C109_transparent_example : ex_tupc_points [1; 2; 3; 4]%Z 3 142 = Ok [3%Z].
Proof. vm_compute. reflexivity. Qed.

(** Properties C58, C59, C61 (and C17 with an explicit forger): what the polynomial-commitment verifiers
    accept, and how openings are forged. *)
Require Import List Arith NArith ZArith Lia Bool Field.
Import ListNotations.
Require Import Verif.Outcome Verif.Algebra Verif.Zp Verif.Rust Verif.InnerProducts Verif.Commitments
  Verif.Gipa Verif.Poly Verif.Tipa Verif.Ssm Verif.Floats Verif.PolyCommit Verif.Transparent Verif.Spec Verif.ListFacts
  Verif.RustFacts Verif.InnerProductFacts Verif.CommitFacts Verif.GipaFacts Verif.GipaComplete Verif.GipaTop Verif.GipaAttack
  Verif.SerFacts Verif.PolyFacts Verif.KeyFacts Verif.TipaFacts Verif.SsmFacts Verif.FloatFacts Verif.PcFacts Verif.PcDegrees
  Verif.UpcFacts Verif.TransparentFacts Verif.VerifyFacts Verif.SpecialFacts
  Verif.PropsBase Verif.PropsGipa Verif.PropsTipa Verif.PropsSsm Verif.PropsPoly Verif.PropsVerify Verif.Forger Verif.PcAttack.

(** ** C58 *)
(** The argument that [com] commits to row commitments whose combination with 1, x, x^2, ... is [Y]
    (conditions of C54): [cs] are the round challenges, [z] the opening challenge. *)
Definition rows_argument_holds {P : pairing} (D : bytes -> bytes) (fuel : nat) (beta : pK P) (com : pGT P) (Y : pG1 P) (x : pK P)
    (ip : tssm_proof P (pG1 P) (mod_carrier (pGT P)) (identity_output (pG1 P))) : Prop :=
  exists cs z, round_challenges D fuel f0 (rev (gp_steps (ts_gipa ip))) cs /\ cs <> [] /\
    drawn D fuel (fser (last cs f0) ++ mser (ts_final_ck ip)) z /\
    ts_final_ck ip -m key_poly (map finv (rev cs)) f1 z *m pr_h P = (beta -f z) *m ts_final_ck_proof ip /\
    pr_e P (fst (gp_base (ts_gipa ip))) (ts_final_ck ip) = folded grp_a com (ts_gipa ip) cs /\
    common_length 1 (gp_steps (ts_gipa ip)) = 1 /\
    folded_powers cs x *m fst (gp_base (ts_gipa ip)) = folded (fun c => at_ (com_vec c) 0) Y (ts_gipa ip) cs.

(** The KZG condition: [proof] opens [Y] to [e] at [y]. *)
Definition kzg_condition {P : pairing} (alpha : pK P) (Y : pG1 P) (y e : pK P) (proof : pG1 P) : Prop :=
  Y -m e *m pr_g P = (alpha -f y) *m proof.

Section C58.
  Context {R : Type} {P : pairing}.
  Add Field KfC58 : (f_theory (pK P)).
  Notation K := (pK P).
  Variables (E : penv) (HE : 1 <= threads E) (D : bytes -> bytes) (fuel : nat) (HD : digest16 D).
  Variables (rand : sampler R (pK P)) (rand_g2 : sampler R (pG2 P)).

  Theorem C58_bivariate_accepts_iff alpha beta com x y e (proof : opening_proof P) :
    bpc_verify P E D fuel rand_g2 (key_of alpha beta) com (x, y) e proof = Ok true <->
    rows_argument_holds D fuel beta com (op_y_eval_comm proof) x (op_ip proof) /\
    kzg_condition alpha (op_y_eval_comm proof) y e (op_kzg proof).
  Proof using HE HD.
    unfold bpc_verify.
    pose proof (C54_multiexp_instance R P E rand_g2 D fuel alpha beta (tt : unitmod K) com [op_y_eval_comm proof] x (op_ip proof)
                  HE HD) as H. cbv zeta in H. split.
    - intros Hv. apply rbind_ok in Hv as [b1 [H1 Hv]]. apply rbind_ok in Hv as [b2 [H2 Hv]].
      assert (Hb : b1 && b2 = true) by congruence. apply andb_true_iff in Hb as [-> ->].
      split; [exact (proj1 H H1)|]. exact (proj1 (kzg_verify_iff alpha beta _ y e _) H2).
    - intros [H1 H2]. pose proof (proj2 H H1) as H3.
      match goal with |- rbind ?A _ = _ => replace A with (Ok true) by (symmetry; exact H3) end. cbn [rbind].
      pose proof (proj2 (kzg_verify_iff alpha beta (op_y_eval_comm proof) y e (op_kzg proof)) H2) as H4.
      match goal with |- rbind ?A _ = _ => replace A with (Ok true) by (symmetry; exact H4) end. reflexivity.
  Qed.

  (** The univariate verifier uses x = point^(number of powers in the SRS made for that degree). *)
  Theorem C58_univariate_accepts_iff (rng : R) d s rng' v com z e (proof : opening_proof P) : 1 <= d -> (Z.of_nat d < 2 ^ 52)%Z ->
    upc_setup P rand rng d = Ok (s, rng') -> get_verifier_key (fst s) = Ok v ->
    exists alpha beta, at_ (snd s) 1 = alpha *m pr_g P /\ at_ (h_beta_powers (fst s)) 1 = beta *m pr_h P /\
     (upc_verify P E D fuel rand_g2 v d com z e proof = Ok true <->
      rows_argument_holds D fuel beta com (op_y_eval_comm proof) (fpow z (length (snd s))) (op_ip proof) /\
      kzg_condition alpha (op_y_eval_comm proof) z e (op_kzg proof)).
  Proof using HE HD.
    intros Hd Hlt Hs Hv. destruct (upc_setup_ok (P := P) rand rng d Hd Hlt) as [xd [yd [rng2 [Hdeg Hs2]]]].
    rewrite Hs in Hs2. injection Hs2 as -> ->. pose proof (trap_bsrs_vkey (fst (rand rng)) (fst (rand (snd (rand rng)))) xd yd) as Hk.
    rewrite Hk in Hv. injection Hv as <-.
    destruct (degrees_split 4 d ltac:(lia) Hd Hlt) as [k [k' [xd' [yd' [H [Hx [Hy Hcap]]]]]]].
    change (2 * 2 ^ 4) with 32 in H. change (2 ^ 4) with 16 in H. rewrite Hdeg in H. injection H as <- <-.
    pose proof (pow2_pos k). pose proof (pow2_pos k'). cbn [Nat.pow] in Hx, Hy.
    set (alpha := fst (rand rng)) in *. set (beta := fst (rand (snd (rand rng)))) in *.
    exists alpha, beta. unfold trap_bsrs. cbn [fst snd h_beta_powers]. split; [|split].
    - unfold kzg_powers. rewrite at_map_seq by lia. cbn [fpow]. f_equal. ring.
    - rewrite (at_map_seq (fun i => fpow beta i *m pr_h P)) by lia. cbn [fpow]. f_equal. ring.
    - rewrite kzg_powers_length. unfold upc_verify. rewrite Hdeg. cbn [rbind]. apply C58_bivariate_accepts_iff.
  Qed.
End C58.
Print Assumptions C58_bivariate_accepts_iff.
Print Assumptions C58_univariate_accepts_iff.

(** ** C59 *)
(** The conditions of C55 for the outer argument ([com] commits to row commitments that combine to [Y])
    and for the inner one ([Y] commits to coefficients of a polynomial with value [e] at [y]). *)
Definition outer_argument_holds {P : pairing} (D : bytes -> bytes) (fuel : nat) (ck2 : list (pG2 P)) (com : pGT P) (Y : pG1 P)
    (x : pK P) (ip : gssm_proof (pG1 P) (mod_carrier (pGT P)) (identity_output (pG1 P))) : Prop :=
  exists cs, round_challenges D fuel f0 (rev (gp_steps ip)) cs /\ length ck2 = 2 ^ length (gp_steps ip) /\
    pr_e P (fst (gp_base ip)) (folded_key ck2 (map finv cs)) = folded grp_a com ip cs /\
    folded (M := fmod (pK P)) grp_b (f0 : fmod (pK P)) ip cs = f0 /\
    common_length 1 (gp_steps ip) = 1 /\
    snd (gp_base ip) *m fst (gp_base ip) = folded (fun c => at_ (com_vec c) 0) Y ip cs /\
    folded_powers cs x *m fst (gp_base ip) = folded (fun c => at_ (com_vec c) 0) Y ip cs.
Definition inner_argument_holds {P : pairing} (D : bytes -> bytes) (fuel : nat) (ck1 : list (pG1 P)) (Y : pG1 P) (e : pK P)
    (y : pK P) (ip : gssm_proof (fmod (pK P)) (mod_carrier (pG1 P)) (identity_output (fmod (pK P)))) : Prop :=
  exists cs, round_challenges D fuel f0 (rev (gp_steps ip)) cs /\ length ck1 = 2 ^ length (gp_steps ip) /\
    fst (gp_base ip) *m folded_key ck1 (map finv cs) = folded grp_a Y ip cs /\
    folded (M := fmod (pK P)) grp_b (f0 : fmod (pK P)) ip cs = f0 /\
    common_length 1 (gp_steps ip) = 1 /\
    fst (gp_base ip) *f snd (gp_base ip) = folded (fun c => at_ (com_vec c) 0) (e : fmod (pK P)) ip cs /\
    fst (gp_base ip) *f folded_powers cs y = folded (fun c => at_ (com_vec c) 0) (e : fmod (pK P)) ip cs.

Lemma scalar_single {K : field} (E : penv) (a b : K) : scalar_ip E [a] [b] = Ok (a *f b).
Proof.
  destruct (C02_scalar_outcome K E [a] [b]) as [[H _]|[_ H]]; [cbn in H; congruence|]. rewrite H. f_equal.
  unfold scalar_sum. cbn. exact (madd_0_l K (fmod K) _).
Qed.
Lemma pedersen_single {R} {K : field} (G : module K) (rand : sampler R G) (k : G) (a : fmod K) :
  dh_commit (pedersen G rand) [k] [a] = Ok (a *m k).
Proof. exact (multiexp_single G k a). Qed.

Section C59.
  Context {R : Type} {P : pairing}.
  Notation K := (pK P).
  Variables (E : penv) (HE : 1 <= threads E) (D : bytes -> bytes) (fuel : nat) (HD : digest16 D).
  Variables (rand_g1 : sampler R (pG1 P)) (rand_g2 : sampler R (pG2 P)).
  Lemma inner_iff ck1 Y (e y : K) ip :
    gssm_verify (pedersen (pG1 P) rand_g1) (identity (R := R) (fmod K)) (@scalar_ip K E) D fuel E (ck1, (tt : unitmod K))
      (Y : mod_carrier (pG1 P), [e] : identity_output (fmod K)) y ip = Ok true <->
    inner_argument_holds D fuel ck1 Y e y ip.
  Proof using HD.
    etransitivity; [apply (C55_gssm_accepts_iff (MA := fmod K) (MT := fmod K) D fuel E HD (pedersen (pG1 P) rand_g1) (@scalar_ip K E))|].
    unfold inner_argument_holds. split.
    - intros [cs [v [v' [H1 [H2 [H3 [H4 [H5 [H6 [H7 [H8 H9]]]]]]]]]]]. exists cs.
      pose proof (Ok_inj _ _ (eq_trans (eq_sym H5) (scalar_single E (fst (gp_base ip)) (snd (gp_base ip))))) as ->.
      pose proof (Ok_inj _ _ (eq_trans (eq_sym H6) (scalar_single E (fst (gp_base ip)) (folded_powers cs y)))) as ->.
      rewrite pedersen_single in H3. apply Ok_inj in H3. auto 10.
    - intros [cs [H1 [H2 [H3 [H4 [H5 [H6 H7]]]]]]].
      exists cs, (fst (gp_base ip) *f snd (gp_base ip)), (fst (gp_base ip) *f folded_powers cs y).
      rewrite pedersen_single. rewrite H3. pose proof (scalar_single E (fst (gp_base ip)) (snd (gp_base ip))).
      pose proof (scalar_single E (fst (gp_base ip)) (folded_powers cs y)). auto 12.
  Qed.

  Theorem C59_transparent_accepts_iff ck1 ck2 com x y e (proof : t_opening_proof P) :
    tbpc_verify P E D fuel rand_g1 rand_g2 (ck1, ck2) com (x, y) e proof = Ok true <->
    outer_argument_holds D fuel ck2 com (to_y_eval_comm proof) x (to_second proof) /\
    inner_argument_holds D fuel ck1 (to_y_eval_comm proof) e y (to_first proof).
  Proof using HE HD.
    unfold tbpc_verify.
    pose proof (C55_multiexp_instance R P E rand_g2 D fuel ck2 (tt : unitmod K) com [to_y_eval_comm proof] x (to_second proof)
                  HE HD) as H. cbv zeta in H.
    pose proof (inner_iff ck1 (to_y_eval_comm proof) e y (to_first proof)) as H'. split.
    - intros Hv. apply rbind_ok in Hv as [b1 [H1 Hv]]. apply rbind_ok in Hv as [b2 [H2 Hv]].
      assert (Hb : b1 && b2 = true) by congruence. apply andb_true_iff in Hb as [-> ->].
      split; [exact (proj1 H H1)|]. exact (proj1 H' H2).
    - intros [H1 H2]. pose proof (proj2 H H1) as H3. pose proof (proj2 H' H2) as H4.
      match goal with |- rbind ?A _ = _ => replace A with (Ok true) by (symmetry; exact H3) end. cbn [rbind].
      match goal with |- rbind ?A _ = _ => replace A with (Ok true) by (symmetry; exact H4) end. reflexivity.
  Qed.

  (** The univariate verifier uses x = point^(size of the first key). *)
  Theorem C59_transparent_univariate_accepts_iff ck1 ck2 com z e (proof : t_opening_proof P) :
    tupc_verify P E D fuel rand_g1 rand_g2 (ck1, ck2) com z e proof = Ok true <->
    outer_argument_holds D fuel ck2 com (to_y_eval_comm proof) (fpow z (length ck1)) (to_second proof) /\
    inner_argument_holds D fuel ck1 (to_y_eval_comm proof) e z (to_first proof).
  Proof using HE HD.
    rewrite <- C59_transparent_accepts_iff. unfold tupc_verify, parse_degrees_ck. cbn [fst snd].
    destruct ck2 as [|k2 ck2]; [|destruct ck1 as [|k1 ck1]].
    - cbn [length Nat.ltb Nat.leb rassert rbind]. split; [discriminate|]. intros H. exfalso.
      apply C59_transparent_accepts_iff in H as [[cs [_ [H _]]] _]. cbn in H. pose proof (pow2_pos (length (gp_steps (to_second proof)))). lia.
    - cbn [length Nat.ltb Nat.leb rassert rbind]. split; [discriminate|]. intros H. exfalso.
      apply C59_transparent_accepts_iff in H as [_ [cs [_ [H _]]]]. cbn in H. pose proof (pow2_pos (length (gp_steps (to_first proof)))). lia.
    - cbn [length Nat.ltb Nat.leb rassert rbind]. replace (S (length ck1) - 1 + 1) with (S (length ck1)) by lia. reflexivity.
  Qed.
End C59.
Print Assumptions C59_transparent_accepts_iff.
Print Assumptions C59_transparent_univariate_accepts_iff.

(** ** C61 *)
Section C61.
  Context {R : Type} {P : pairing}.
  Notation K := (pK P).
  Add Field KfC61 : (f_theory (pK P)).
  Variables (E : penv) (HE : 1 <= threads E) (D : bytes -> bytes) (fuel : nat) (HD : digest16 D).
  Variables (rand : sampler R (pK P)) (rand_g1 : sampler R (pG1 P)) (rand_g2 : sampler R (pG2 P)).
  Hypothesis HL : rounds_end (mod_carrier (pGT P)) (mod_carrier (fmod K)) (identity_output (pG1 P)) D fuel.
  Lemma shifted_neq (e c d : K) : c <> f0 -> d <> f0 -> e -f c *f d <> e.
  Proof using.
    intros Hc Hd H. apply (fmul_neq0 _ c d Hc Hd).
    replace (c *f d) with (e -f (e -f c *f d)) by ring. rewrite H. ring.
  Qed.

  (** For every committed polynomial, point and d <> 0 the forger's run ends with an opening of the same
      commitment at the same point to another value. *)
  Theorem C61_bivariate_forged_refuted (rng : R) k xd yd : draws_end K D fuel -> xd + 1 = 2 ^ S k ->
    exists s rng' v, bpc_setup P rand rng xd yd = Ok (s, rng') /\ get_verifier_key (fst s) = Ok v /\
      forall p x y d, length p <= xd + 1 -> Forall (degree_below (yd + 1)) p -> d <> f0 ->
      exists com coms proof e', bpc_commit P E rand_g2 s p = Ok (com, coms) /\
        bpc_forger P E D fuel rand_g2 s p coms (x, y) d = Ok (proof, e') /\ e' <> bipoly_at p x y /\
        bpc_verify P E D fuel rand_g2 v com (x, y) e' proof = Ok true.
  Proof using HE HD HL.
    intros HL2 Hx. destruct (bpc_setup_ok (P := P) rand rng xd yd) as [rng' Hs].
    eexists _, rng', _. split; [exact Hs|]. split; [apply trap_bsrs_vkey|].
    intros p x y d Hl Hr Hd. apply degree_below_wfs in Hr.
    destruct (bpc_forger_ok E HE D fuel rand_g2 (rounds_end_live D fuel HD HL) (fst (rand rng)) (fst (rand (snd (rand rng))))
      k xd yd p x y d (draws_end_live K D fuel HL2) Hx Hl Hr) as [com [coms [proof [c [Hc [H1 [H2 H3]]]]]]].
    eexists com, coms, proof, _. split; [exact H1|]. split; [exact H2|]. split; [|exact H3].
    rewrite <- C35_bivariate_evaluation. now apply shifted_neq.
  Qed.

  Theorem C61_univariate_forged_refuted (rng : R) d : draws_end K D fuel -> 1 <= d -> (Z.of_nat d < 2 ^ 52)%Z ->
    exists s rng' v, upc_setup P rand rng d = Ok (s, rng') /\ get_verifier_key (fst s) = Ok v /\
      forall p z t, degree_below (d + 1) p -> t <> f0 ->
      exists com coms proof e', upc_commit P E rand_g2 s p = Ok (com, coms) /\
        upc_forger P E D fuel rand_g2 s p coms z t = Ok (proof, e') /\ e' <> poly_at p z /\
        upc_verify P E D fuel rand_g2 v d com z e' proof = Ok true.
  Proof using HE HD HL.
    intros HL2 Hd Hlt. destruct (upc_setup_ok (P := P) rand rng d Hd Hlt) as [xd [yd [rng' [Hdeg Hs]]]].
    eexists _, rng', _. split; [exact Hs|]. split; [apply trap_bsrs_vkey|].
    intros p z t Hp Ht. apply degree_below_wf in Hp.
    destruct (upc_forger_ok E HE D fuel rand_g2 (rounds_end_live D fuel HD HL) (fst (rand rng)) (fst (rand (snd (rand rng))))
      d xd yd p z t (draws_end_live K D fuel HL2) Hd Hlt Hdeg Hp) as [com [coms [proof [c [Hc [H1 [H2 H3]]]]]]].
    eexists com, coms, proof, _. split; [exact H1|]. split; [exact H2|]. split; [|exact H3].
    rewrite <- ev_poly_at. now apply shifted_neq.
  Qed.

  Hypothesis HLf : rounds_end (mod_carrier (pG1 P)) (mod_carrier (fmod K)) (identity_output (fmod K)) D fuel.
  Theorem C61_transparent_forged_refuted (ck1 : list (pG1 P)) (ck2 : list (pG2 P)) k1 k2 p x y d :
    length ck1 = 2 ^ S k1 -> length ck2 = 2 ^ k2 ->
    length p <= 2 ^ k2 -> Forall (fun row => length row <= 2 ^ S k1) p -> d <> f0 ->
    exists com coms proof e', tbpc_commit P E rand_g1 rand_g2 (ck1, ck2) p = Ok (com, coms) /\
      tbpc_forger P E D fuel rand_g1 rand_g2 (ck1, ck2) p coms (x, y) d = Ok (proof, e') /\ e' <> bipoly_at p x y /\
      tbpc_verify P E D fuel rand_g1 rand_g2 (ck1, ck2) com (x, y) e' proof = Ok true.
  Proof using HE HD HL HLf.
    intros H1 H2 Hl Hr Hd. rewrite <- H2 in Hl. rewrite <- H1 in Hr.
    destruct (tbpc_forger_ok E HE D fuel rand_g2 (rounds_end_live D fuel HD HL) rand_g1 ck1 ck2 p k1 k2 x y d
      (rounds_end_live D fuel HD HLf) H2 H1 Hl Hr) as [com [coms [proof [c [Hc [G1 [G2 G3]]]]]]].
    eexists com, coms, proof, _. split; [exact G1|]. split; [exact G2|]. split; [|exact G3].
    rewrite <- C35_bivariate_evaluation. now apply shifted_neq.
  Qed.

  Theorem C61_transparent_univariate_forged_refuted (rng : R) d : 1 <= d -> (Z.of_nat d < 2 ^ 52)%Z ->
    exists ck rng', tupc_setup P E rand_g1 rand_g2 rng d = Ok (ck, rng') /\
      forall p z t, degree_below (d + 1) p -> t <> f0 ->
      exists com coms proof e', tupc_commit P E rand_g1 rand_g2 ck p = Ok (com, coms) /\
        tupc_forger P E D fuel rand_g1 rand_g2 ck p coms z t = Ok (proof, e') /\ e' <> poly_at p z /\
        tupc_verify P E D fuel rand_g1 rand_g2 ck com z e' proof = Ok true.
  Proof using HE HD HL HLf.
    intros Hd Hlt. destruct (degrees_split 2 d ltac:(lia) Hd Hlt) as [k [k' [xd [yd [Hb [Hx [Hy Hcap]]]]]]].
    change (2 * 2 ^ 2) with 8 in Hb. change (2 ^ 2) with 4 in Hb.
    destruct (C40_setup E rand_g1 rand_g2 rng xd yd) as [ck1 [ck2 [rng' [Hs [H1 H2]]]]].
    exists (ck1, ck2), rng'. split. { unfold tupc_setup. rewrite Hb. cbn [rbind]. exact Hs. }
    intros p z t Hp Ht. apply degree_below_wf, (wf_row_mono (d + 1) _ p Hcap) in Hp.
    destruct (tupc_forger_ok E HE D fuel rand_g2 (rounds_end_live D fuel HD HL) rand_g1 ck1 ck2 p k' (S k) xd yd z t
      (rounds_end_live D fuel HD HLf) H2 H1 Hx Hy Hp) as [com [coms [proof [c [Hc [G1 [G2 G3]]]]]]].
    eexists com, coms, proof, _. split; [exact G1|]. split; [exact G2|]. split; [|exact G3].
    rewrite <- ev_poly_at. now apply shifted_neq.
  Qed.

  (** What does hold.  One proof is accepted for at most one value (the whole claim would be: one commitment
      and point have at most one value for which a proof can be found) ... *)
  Theorem C61_one_value_per_proof_partial alpha beta com x y e e' proof : pr_g P <> m0 ->
    bpc_verify P E D fuel rand_g2 (key_of alpha beta) com (x, y) e proof = Ok true ->
    bpc_verify P E D fuel rand_g2 (key_of alpha beta) com (x, y) e' proof = Ok true -> e = e'.
  Proof using HE HD.
    intros Hg H1 H2. apply (C58_bivariate_accepts_iff E HE D fuel HD) in H1 as [_ H1], H2 as [_ H2].
    unfold kzg_condition in H1, H2. rewrite <- H2 in H1.
    destruct (f_eq_dec _ e e') as [|Hne]; auto. exfalso. apply Hg.
    assert (Hz : (e -f e') *m pr_g P = m0).
    { apply (madd_cancel_l _ _ (op_y_eval_comm proof -m e *m pr_g P)). rewrite H1 at 2. module_norm; ring. }
    apply mscale_integral in Hz as [Hz|Hz]; auto. exfalso. apply Hne. replace e with ((e -f e') +f e') by ring. rewrite Hz. ring.
  Qed.

  (** ... and two openings of one commitment at one point with the same [y_eval_comm] to different values
      give g / (alpha - y), which the strong Diffie-Hellman assumption says cannot be found. *)
  Theorem C61_same_row_commitment_partial alpha beta com com' x x' y e e' proof proof' : e <> e' ->
    op_y_eval_comm proof = op_y_eval_comm proof' ->
    bpc_verify P E D fuel rand_g2 (key_of alpha beta) com (x, y) e proof = Ok true ->
    bpc_verify P E D fuel rand_g2 (key_of alpha beta) com' (x', y) e' proof' = Ok true ->
    (alpha -f y) *m (finv (e' -f e) *m (op_kzg proof -m op_kzg proof')) = pr_g P.
  Proof using HE HD.
    intros Hne Hy H1 H2. apply (C58_bivariate_accepts_iff E HE D fuel HD) in H1 as [_ H1], H2 as [_ H2].
    unfold kzg_condition in H1, H2. rewrite <- Hy in H2.
    apply (kzg_binding alpha beta (op_y_eval_comm proof) y e e'); auto; now apply kzg_verify_iff.
  Qed.

  Theorem C61_transparent_one_value_per_proof_partial ck1 ck2 com x y e e' proof :
    tbpc_verify P E D fuel rand_g1 rand_g2 (ck1, ck2) com (x, y) e proof = Ok true ->
    tbpc_verify P E D fuel rand_g1 rand_g2 (ck1, ck2) com (x, y) e' proof = Ok true -> e = e'.
  Proof using HE HD.
    intros H1 H2. apply (C59_transparent_accepts_iff E HE D fuel HD) in H1 as [_ H1], H2 as [_ H2].
    destruct H1 as [cs [C1 [_ [_ [_ [_ [H1 _]]]]]]]. destruct H2 as [cs' [C2 [_ [_ [_ [_ [H2 _]]]]]]].
    pose proof (round_challenges_fun D fuel f0 _ cs cs' HD C1 C2) as ->.
    pose proof (eq_trans (eq_sym H1) H2) as H. unfold folded in H.
    rewrite (madd_comm K (fmod K) e), (madd_comm K (fmod K) e') in H. exact (madd_cancel_l K (fmod K) _ e e' H).
  Qed.
End C61.
Print Assumptions C61_bivariate_forged_refuted.
Print Assumptions C61_univariate_forged_refuted.
Print Assumptions C61_transparent_forged_refuted.
Print Assumptions C61_transparent_univariate_forged_refuted.
Print Assumptions C61_one_value_per_proof_partial.
Print Assumptions C61_same_row_commitment_partial.
Print Assumptions C61_transparent_one_value_per_proof_partial.

(** ** C17 again, with the program that makes the proof *)
Lemma shifted_neq_m {K : field} {M : module K} (x d : M) (c : K) : c <> f0 -> d <> m0 -> x -m c *m d <> x.
Proof.
  intros Hc Hd H. assert (Hz : c *m d = m0).
  { apply (madd_cancel_l _ _ (x -m c *m d)). rewrite madd_0_r. rewrite H at 2. unfold msub.
    rewrite <- madd_assoc, (madd_comm _ _ (mopp _)), madd_opp. apply madd_0_r. }
  apply mscale_integral in Hz as [Hz|Hz]; contradiction.
Qed.
Theorem C17_forging_program_refuted R (P : pairing) (E : penv) (r1 : sampler R (pG1 P)) (r2 : sampler R (pG2 P))
    D fuel k (a : list (pG1 P)) (b : list (pG2 P)) (ka : list (pG2 P)) (kb : list (pG1 P)) (kt : unitmod (pK P))
    (d : pGT P) :
  1 <= threads E -> digest16 D ->
  rounds_end (mod_carrier (pGT P)) (mod_carrier (pGT P)) (identity_output (pGT P)) D fuel ->
  length a = 2 ^ S k -> length b = 2 ^ S k -> length ka = 2 ^ S k -> length kb = 2 ^ S k -> d <> m0 ->
  exists proof aux c, gipa_forger (afgho_g1 P E r2) (afgho_g2 P E r1) (identity (pGT P)) (pairing_ip P E) D fuel
      (a, b) (ka, kb, [kt]) d = Ok (proof, aux, c) /\
    pairing_sum P a b -m c *m d <> pairing_sum P a b /\
    gipa_verify (afgho_g1 P E r2) (afgho_g2 P E r1) (identity (pGT P)) (pairing_ip P E) D fuel
      (ka, kb, kt) (pairing_sum P a ka, pairing_sum P kb b, [pairing_sum P a b -m c *m d]) proof = Ok true.
Proof.
  intros HE HD HL Ha Hb Hka Hkb Hd.
  destruct (gipa_forger_accepted D fuel mid mid idout (phi_g1 P) (pr_e P) psi_id (pr_e P)
              (afgho_g1 P E r2) (afgho_g2 P E r1) (identity (pGT P)) (pairing_ip P E)
              (afgho_g1_law P E HE r2) (afgho_g2_law P E HE r1) (identity_law _) (pairing_ip_law P E HE)
              k a b ka kb kt d (rounds_end_live D fuel HD HL) Ha Hb Hka Hkb) as [proof [aux [c [Hc [Hr Hv]]]]].
  exists proof, aux, c. split; [exact Hr|]. split.
  - now apply shifted_neq_m.
  - rewrite <- Hv. unfold mid, idout, psi_id, phi_g1. rewrite <- !dot_pairing_sum by congruence. now rewrite dot_flip.
Qed.
Print Assumptions C17_forging_program_refuted.

(** ** Runs *)
(** [2;3] . [5;7] = 31; the forger's proof is accepted for 31 - c, not for 31 *)
Example C17_forger_example :
  (do (proof, _, c) <- gipa_forger (K := ZP) (ex_L ex_env) (ex_R ex_env) ex_T (pairing_ip ZPair ex_env) toy_digest 5
     (zl [2; 3]%Z, zl [5; 7]%Z) (zl [11; 12]%Z, zl [21; 22]%Z, [tt]) (zq 1);
   let com t := (pairing_sum ZPair (zl [2; 3]%Z) (zl [11; 12]%Z), pairing_sum ZPair (zl [21; 22]%Z) (zl [5; 7]%Z), [t]) in
   do ok <- ex_verify (zl [11; 12]%Z, zl [21; 22]%Z, tt) (com (zp_sub (zq 31) c)) proof;
   do ok' <- ex_verify (zl [11; 12]%Z, zl [21; 22]%Z, tt) (com (zq 31)) proof;
   Ok (ok, ok', zp_eqb c (zq 0))) = Ok (true, false, false).
Proof. vm_compute. reflexivity. Qed.

(** Openings of (3 + 4y) + (5 + 6y) x at (2, 10): the honest proof is accepted for 173 and the forged one for its
    own value only; with any field of the forged proof changed it is rejected. *)
Definition ex_bpc_forge (f : opening_proof ZPair -> opening_proof ZPair) (e : option Z) : res (bool * bool) :=
  do (s, _) <- bpc_setup ZPair ex_scalars 5%Z 3 1;
  do v <- get_verifier_key (fst s);
  let p := [zl [3; 4]; zl [5; 6]; []]%Z in
  do (com, coms) <- bpc_commit ZPair ex_env ex_rand s p;
  do (proof, e') <- bpc_forger ZPair ex_env toy_digest 9 ex_rand s p coms (zq 2, zq 10) (zq 1);
  do ok <- bpc_verify ZPair ex_env1 toy_digest 9 ex_rand v com (zq 2, zq 10) (match e with Some e => zq e | None => e' end) (f proof);
  Ok (zp_eqb e' (zq 173), ok).
Definition ex_o_comm (p : opening_proof ZPair) : opening_proof ZPair := mk_opening (P := ZPair) (op_ip p) (ex_add1 (op_y_eval_comm p)) (op_kzg p).
Definition ex_o_kzg (p : opening_proof ZPair) : opening_proof ZPair := mk_opening (P := ZPair) (op_ip p) (op_y_eval_comm p) (ex_add1 (op_kzg p)).
Definition ex_o_ck (p : opening_proof ZPair) : opening_proof ZPair :=
  mk_opening (P := ZPair) (mk_tssm_proof (P := ZPair) (ts_gipa (op_ip p)) (ex_add1 (ts_final_ck (op_ip p))) (ts_final_ck_proof (op_ip p)))
    (op_y_eval_comm p) (op_kzg p).
Definition ex_o_ckp (p : opening_proof ZPair) : opening_proof ZPair :=
  mk_opening (P := ZPair) (mk_tssm_proof (P := ZPair) (ts_gipa (op_ip p)) (ts_final_ck (op_ip p)) (ex_add1 (ts_final_ck_proof (op_ip p))))
    (op_y_eval_comm p) (op_kzg p).
Example C61_example : ex_bpc_forge (fun p => p) None = Ok (false, true) /\ ex_bpc_forge (fun p => p) (Some 173%Z) = Ok (false, false).
Proof. vm_compute. split; reflexivity. Qed.
Example C58_example :
  ex_bpc_forge ex_o_comm None = Ok (false, false) /\ ex_bpc_forge ex_o_kzg None = Ok (false, false) /\
  ex_bpc_forge ex_o_ck None = Ok (false, false) /\ ex_bpc_forge ex_o_ckp None = Ok (false, false).
Proof. vm_compute. repeat split; reflexivity. Qed.

Definition ex_tupc_forge (f : t_opening_proof ZPair -> t_opening_proof ZPair) (e : option Z) : res (bool * bool) :=
  do (ck, _) <- tupc_setup ZPair ex_env ex_rand ex_rand 5%Z 3;
  do (com, coms) <- tupc_commit ZPair ex_env ex_rand ex_rand ck (zl [1; 2; 3; 4]%Z);
  do (proof, e') <- tupc_forger ZPair ex_env toy_digest 9 ex_rand ex_rand ck (zl [1; 2; 3; 4]%Z) coms (zq 3) (zq 1);
  do ok <- tupc_verify ZPair ex_env1 toy_digest 9 ex_rand ex_rand ck com (zq 3) (match e with Some e => zq e | None => e' end) (f proof);
  Ok (zp_eqb e' (zq 142), ok).
Example C61_transparent_example :
  ex_tupc_forge (fun p => p) None = Ok (false, true) /\ ex_tupc_forge (fun p => p) (Some 142%Z) = Ok (false, false).
Proof. vm_compute. split; reflexivity. Qed.
Example C59_example :
  ex_tupc_forge (fun p => mk_t_opening (P := ZPair) (ex_base ex_bump1 (to_second p)) (to_y_eval_comm p) (to_first p)) None = Ok (false, false) /\
  ex_tupc_forge (fun p => mk_t_opening (P := ZPair) (ex_base ex_bump2 (to_second p)) (to_y_eval_comm p) (to_first p)) None = Ok (false, false) /\
  ex_tupc_forge (fun p => mk_t_opening (P := ZPair) (to_second p) (ex_add1 (to_y_eval_comm p)) (to_first p)) None = Ok (false, false) /\
  ex_tupc_forge (fun p => mk_t_opening (P := ZPair) (to_second p) (to_y_eval_comm p) (ex_base ex_bump1 (to_first p))) None = Ok (false, false) /\
  ex_tupc_forge (fun p => mk_t_opening (P := ZPair) (to_second p) (to_y_eval_comm p) (ex_base ex_bump2 (to_first p))) None = Ok (false, false).
Proof. vm_compute. repeat split; reflexivity. Qed.
(** all hypotheses of the C61 theorems at once *)
Example C61_hypotheses : digest16 even_digest /\ draws_end ZP even_digest 1 /\
  rounds_end (mod_carrier ZM) (mod_carrier (fmod ZP)) (identity_output ZM) even_digest 1 /\
  rounds_end (mod_carrier ZM) (mod_carrier (fmod ZP)) (identity_output (fmod ZP)) even_digest 1 /\
  (exists k, 3 + 1 = 2 ^ S k) /\ zp_eqb (pr_g ZPair) (zq 0) = false.
Proof.
  destruct ends_example as [H1 [H2 _]]. split; [exact H1|]. split; [exact H2|]. split; [|split; [|split; [now exists 1|reflexivity]]].
  - intros prev c1 c2. exists 0, (f_ofN (f := ZP) (from_be_bytes (repeat 1%N 16))). split; [lia|]. vm_compute. reflexivity.
  - intros prev c1 c2. exists 0, (f_ofN (f := ZP) (from_be_bytes (repeat 1%N 16))). split; [lia|]. vm_compute. reflexivity.
Qed.

(** Property C60: what the verifier of aggregated Groth16 proofs accepts. *)
Require Import List Arith NArith ZArith Lia Bool Field.
Import ListNotations.
Require Import Verif.Outcome Verif.Algebra Verif.Zp Verif.Rust Verif.InnerProducts Verif.Commitments
  Verif.Gipa Verif.Poly Verif.Tipa Verif.Ssm Verif.Groth16 Verif.Spec Verif.ListFacts
  Verif.RustFacts Verif.InnerProductFacts Verif.CommitFacts Verif.GipaFacts Verif.GipaComplete Verif.GipaTop
  Verif.SerFacts Verif.PolyFacts Verif.KeyFacts Verif.TipaFacts Verif.SsmFacts Verif.VerifyFacts Verif.Groth16Facts
  Verif.PropsBase Verif.PropsGipa Verif.PropsTipa Verif.PropsSsm Verif.PropsGroth Verif.PropsVerify Verif.PropsPcVerify.

(** The argument that [ca] and [cb] commit (under the keys shifted by [r], see C53) to vectors with the
    pairing inner product [t]. *)
Definition ab_argument_holds {P : pairing} (D : bytes -> bytes) (fuel : nat) (alpha beta : pK P) (ca cb t : pGT P) (r : pK P)
    (proof : tipa_proof P (pG1 P) (pG2 P) (mod_carrier (pGT P)) (mod_carrier (pGT P)) (identity_output (pGT P))) : Prop :=
  exists cs z, round_challenges D fuel f0 (rev (gp_steps (tp_gipa proof))) cs /\ cs <> [] /\
    drawn D fuel (fser (last cs f0) ++ mser (fst (tp_final_ck proof)) ++ mser (snd (tp_final_ck proof))) z /\
    ck_openings_hold alpha beta proof cs r z /\
    pr_e P (fst (gp_base (tp_gipa proof))) (fst (tp_final_ck proof)) = folded grp_a ca (tp_gipa proof) cs /\
    pr_e P (snd (tp_final_ck proof)) (snd (gp_base (tp_gipa proof))) = folded grp_b cb (tp_gipa proof) cs /\
    pr_e P (fst (gp_base (tp_gipa proof))) (snd (gp_base (tp_gipa proof))) =
      folded (fun c => at_ (com_vec c) 0) t (tp_gipa proof) cs /\
    (forall j, j < length (gp_steps (tp_gipa proof)) ->
       com_vec (fst (round (tp_gipa proof) j)) <> [] /\ com_vec (snd (round (tp_gipa proof) j)) <> []).

(** The rows of public inputs that the verifier answers for: at least one; the first fits the verifying
    key; the others are at least as long (their further elements are ignored, C52). *)
Definition rows_usable {P : pairing} (vk : g16_vk P) (inputs : list (list (pK P))) : Prop :=
  inputs <> [] /\ length (nth 0 inputs []) + 1 = length (vk_gamma_abc_g1 vk) /\
  Forall (fun row => length (vk_gamma_abc_g1 vk) <= length row + 1) inputs.

Lemma rows_usable_dec {P : pairing} (vk : g16_vk P) inputs : rows_usable vk inputs \/
  (inputs = [] \/ length (nth 0 inputs []) + 1 <> length (vk_gamma_abc_g1 vk) \/
   Exists (fun row => length row + 1 < length (vk_gamma_abc_g1 vk)) inputs).
Proof.
  destruct inputs as [|r0 rows]; [auto|].
  destruct (Nat.eq_dec (length (nth 0 (r0 :: rows) []) + 1) (length (vk_gamma_abc_g1 vk))) as [H|H]; [|auto].
  destruct (Forall_Exists_dec (fun row : list (pK P) => length (vk_gamma_abc_g1 vk) <= length row + 1)
              (fun row => le_dec _ _) (r0 :: rows)) as [F|F].
  - left. repeat split; auto. discriminate.
  - right. right. right. eapply Exists_impl; [|exact F]. cbn. intros. lia.
Qed.

(** The equation of the aggregate. *)
Definition aggregate_equation {P : pairing} (vk : g16_vk P) (inputs : list (list (pK P))) (r : pK P) (ip_ab : pGT P) (agg_c : pG1 P) : Prop :=
  ip_ab =
    big (length inputs) (fun i => fpow r i *m (pr_e P (vk_alpha_g1 vk) (vk_beta_g2 vk)
                                               +m pr_e P (input_comb vk (nth i inputs [])) (vk_gamma_g2 vk)))
    +m pr_e P agg_c (vk_delta_g2 vk).

Theorem C60_groth16_accepts_iff R (P : pairing) (E : penv) D fuel (r1 : sampler R (pG1 P)) (r2 : sampler R (pG2 P))
    alpha beta (vk : g16_vk P) inputs (proof : agg_proof P) :
  1 <= threads E -> digest16 D ->
  g16_verify (R := R) P E D fuel r1 r2 (key_of alpha beta) vk inputs proof = Ok true <->
  rows_usable vk inputs /\
  exists r, drawn D fuel (mser (ag_com_a proof) ++ mser (ag_com_b proof) ++ mser (ag_com_c proof)) r /\ r <> f0 /\ r <> f1 /\
    ab_argument_holds D fuel alpha beta (ag_com_a proof) (ag_com_b proof) (ag_ip_ab proof) r (ag_tipa_ab proof) /\
    rows_argument_holds D fuel beta (ag_com_c proof) (ag_agg_c proof) r (ag_tipa_c proof) /\
    aggregate_equation vk inputs r (ag_ip_ab proof) (ag_agg_c proof).
Proof.
  intros HE HD. destruct (rows_usable_dec vk inputs) as [Hu|Hm].
  2: { split.
    - intros H. exfalso. exact (C52_malformed_not_accepted_partial E D fuel r1 r2 _ vk inputs proof Hm true H).
    - intros [[H1 [H2 H3]] _]. exfalso. destruct Hm as [H|[H|H]]; [auto..|].
      apply Exists_exists in H as [row [Hi Hl]]. rewrite Forall_forall in H3. specialize (H3 row Hi). cbn in H3. lia. }
  assert (Hppe : forall r, r <> f1 -> g16_ppe P E vk inputs r (ag_ip_ab proof) (ag_agg_c proof) =
    Ok (meqb (ag_ip_ab proof) (ppe_rhs vk inputs r (ag_agg_c proof)))).
  { intros r Hr. destruct Hu as [H1 [H2 H3]]. apply ppe_spec; auto. eapply Forall_impl; [|exact H3]. cbn. intros. lia. }
  unfold aggregate_equation. split.
  - intros H. split; [auto|]. destruct (verify_ok_challenge _ _ _ _ _ _ _ _ _ _ H) as [r Hr].
    rewrite (verify_eq _ _ _ _ _ _ _ _ _ r Hr) in H.
    apply rbind_ok in H as [x [Hx H]]. apply rbind_ok in H as [y [Hy H]]. apply rbind_ok in H as [w [Hz H]].
    assert (Hv : x && y && w = true) by congruence. apply andb_true_iff in Hv as [Hv ->]. apply andb_true_iff in Hv as [-> ->].
    assert (H1 : r <> f1) by (intros ->; rewrite ppe_one in Hz; discriminate).
    rewrite Hppe in Hz by auto. injection Hz as Hz. apply meqb_spec in Hz.
    apply C53_pairing_instance in Hx; auto. apply C54_multiexp_instance in Hy; auto.
    destruct Hx as [cs [z [A1 [A2 [A3 A4]]]]]. exists r.
    split; [now apply drawn_iff|]. split; [auto|]. split; [auto|]. split; [exists cs, z; auto|]. auto.
  - intros [_ [r [Hr [H0 [H1 [Hab [Hc Hp]]]]]]].
    assert (Hx : ab_part E D fuel r1 r2 (key_of alpha beta) proof r = Ok true).
    { apply C53_pairing_instance; auto. destruct Hab as [cs [z [A1 [A2 A3]]]]. exists cs, z. auto. }
    assert (Hy : c_part E D fuel r2 (key_of alpha beta) proof r = Ok true).
    { apply C54_multiexp_instance; auto. }
    rewrite (verify_eq E D fuel r1 r2 _ vk inputs proof r); [|apply drawn_iff; auto].
    rewrite Hx, Hy, Hppe by auto. cbn [rbind andb]. f_equal. apply meqb_spec. exact Hp.
Qed.
Print Assumptions C60_groth16_accepts_iff.

Lemma add_cancel_r {K : field} {M : module K} (x y z : M) : x +m z = y +m z -> x = y.
Proof. rewrite !(madd_comm _ _ _ z). apply madd_cancel_l. Qed.

(** The claimed inner product and the aggregated C are determined by the rest of an accepted proof. *)
Theorem C60_outputs_determined R (P : pairing) (E : penv) D fuel (r1 : sampler R (pG1 P)) (r2 : sampler R (pG2 P))
    alpha beta (vk vk' : g16_vk P) inputs inputs' ca cb cc ip agg ip' agg' pab pc :
  1 <= threads E -> digest16 D ->
  g16_verify (R := R) P E D fuel r1 r2 (key_of alpha beta) vk inputs (mk_agg_proof ca cb cc ip agg pab pc) = Ok true ->
  g16_verify (R := R) P E D fuel r1 r2 (key_of alpha beta) vk' inputs' (mk_agg_proof ca cb cc ip' agg' pab pc) = Ok true ->
  ip' = ip /\ agg' = agg.
Proof.
  intros HE HD H H'. apply C60_groth16_accepts_iff in H as [_ [r [C [_ [_ [A [B _]]]]]]]; auto.
  apply C60_groth16_accepts_iff in H' as [_ [r' [C' [_ [_ [A' [B' _]]]]]]]; auto. cbn [ag_com_a ag_com_b ag_com_c ag_ip_ab ag_agg_c ag_tipa_ab ag_tipa_c] in *.
  destruct A as [cs [z [A1 [_ [_ [_ [_ [_ [A2 _]]]]]]]]]. destruct A' as [cs' [z' [A1' [_ [_ [_ [_ [_ [A2' _]]]]]]]]].
  destruct B as [ds [w [B1 [_ [_ [_ [_ [_ B2]]]]]]]]. destruct B' as [ds' [w' [B1' [_ [_ [_ [_ [_ B2']]]]]]]].
  assert (cs' = cs) as -> by (eapply round_challenges_fun; eauto).
  assert (ds' = ds) as -> by (eapply round_challenges_fun; eauto).
  assert (r' = r) as -> by (apply drawn_iff in C, C'; congruence).
  unfold folded in A2, A2', B2, B2'. rewrite A2 in A2'. rewrite B2 in B2'.
  split; symmetry; [exact (add_cancel_r _ _ _ A2')|exact (add_cancel_r _ _ _ B2')].
Qed.
Print Assumptions C60_outputs_determined.

(** An accepted proof is accepted for exactly the usable inputs with the same random combination. *)
Theorem C60_other_inputs_iff R (P : pairing) (E : penv) D fuel (r1 : sampler R (pG1 P)) (r2 : sampler R (pG2 P))
    alpha beta (vk : g16_vk P) inputs inputs' (proof : agg_proof P) (r : pK P) :
  1 <= threads E -> digest16 D ->
  drawn D fuel (mser (ag_com_a proof) ++ mser (ag_com_b proof) ++ mser (ag_com_c proof)) r ->
  g16_verify (R := R) P E D fuel r1 r2 (key_of alpha beta) vk inputs proof = Ok true ->
  g16_verify (R := R) P E D fuel r1 r2 (key_of alpha beta) vk inputs' proof = Ok true <->
  rows_usable vk inputs' /\
  big (length inputs') (fun i => fpow r i *m (pr_e P (vk_alpha_g1 vk) (vk_beta_g2 vk)
                                              +m pr_e P (input_comb vk (nth i inputs' [])) (vk_gamma_g2 vk))) =
  big (length inputs) (fun i => fpow r i *m (pr_e P (vk_alpha_g1 vk) (vk_beta_g2 vk)
                                             +m pr_e P (input_comb vk (nth i inputs [])) (vk_gamma_g2 vk))).
Proof.
  intros HE HD Hr H. apply C60_groth16_accepts_iff in H as [_ [r' [Hr' [H0 [H1 [A [B C]]]]]]]; auto.
  assert (r' = r) as -> by (apply drawn_iff in Hr, Hr'; congruence).
  rewrite C60_groth16_accepts_iff by auto. split.
  - intros [Hu [r' [Hr'' [_ [_ [_ [_ C']]]]]]]. split; [auto|].
    assert (r' = r) as -> by (apply drawn_iff in Hr, Hr''; congruence).
    unfold aggregate_equation in C, C'. rewrite C' in C. exact (add_cancel_r _ _ _ C).
  - intros [Hu He]. split; [auto|]. exists r. repeat split; auto. unfold aggregate_equation. rewrite He. exact C.
Qed.
Print Assumptions C60_other_inputs_iff.

(** The honest aggregate of C41_example is accepted; a change of any one part of it is not, even when the
    aggregate equation still holds (first line: C + 1 and ip + e(1, delta)). *)
Definition ex_gtamper (f : agg_proof ZPair -> agg_proof ZPair) : res bool :=
  do pv <- ex_agg toy_digest ex_pfs; ex_gverify toy_digest ex_inputs (f (fst pv), snd pv).
Definition ex_parts (fa fb fc fi fg : zp -> zp)
    (p : agg_proof ZPair) : agg_proof ZPair :=
  mk_agg_proof (P := ZPair) (fa (ag_com_a p)) (fb (ag_com_b p)) (fc (ag_com_c p)) (fi (ag_ip_ab p)) (fg (ag_agg_c p)) (ag_tipa_ab p) (ag_tipa_c p).
Definition id_zp (x : zp) := x.
Example C60_example :
  ex_gtamper (fun p => p) = Ok true /\
  ex_gtamper (ex_parts id_zp id_zp id_zp (fun x => fadd (f := ZP) x (zq 7)) ex_add1) = Ok false /\
  ex_gtamper (ex_parts ex_add1 id_zp id_zp id_zp id_zp) = Ok false /\
  ex_gtamper (ex_parts id_zp ex_add1 id_zp id_zp id_zp) = Ok false /\
  ex_gtamper (ex_parts id_zp id_zp ex_add1 id_zp id_zp) = Ok false /\
  ex_gtamper (ex_parts id_zp id_zp id_zp ex_add1 id_zp) = Ok false /\
  ex_gtamper (ex_parts id_zp id_zp id_zp id_zp ex_add1) = Ok false.
Proof. vm_compute. repeat split; reflexivity. Qed.
Example C60_hypotheses : 1 <= threads ex_env1 /\ digest16 toy_digest /\ rows_usable ex_vk ex_inputs /\
  rows_usable ex_vk [zl [3]%Z; zl [1; 77; 5]%Z].
Proof.
  split; [cbn; lia|]. split; [exact toy_digest16|].
  split; [split; [discriminate|]; split; [reflexivity|]; repeat constructor|].
  split; [discriminate|]. split; [reflexivity|]. repeat constructor.
Qed.

(** Properties C53 - C57: exactly what the TIPA and structured-scalar-message verifiers accept. *)
Require Import List Arith NArith ZArith Lia Bool Field.
Import ListNotations.
Require Import Verif.Outcome Verif.Algebra Verif.Zp Verif.Rust Verif.InnerProducts Verif.Commitments
  Verif.Gipa Verif.Poly Verif.Tipa Verif.Ssm Verif.Spec Verif.ListFacts Verif.RustFacts
  Verif.InnerProductFacts Verif.CommitFacts Verif.GipaFacts Verif.GipaComplete Verif.GipaTop Verif.GipaAttack
  Verif.SerFacts Verif.PolyFacts Verif.KeyFacts Verif.TipaFacts Verif.SsmFacts Verif.VerifyFacts
  Verif.PropsBase Verif.PropsGipa Verif.PropsTipa Verif.PropsSsm.

(** [z] is the field element decoded from the digest of the first nonce below [fuel] that decodes. *)
Definition drawn {K : field} (D : bytes -> bytes) (fuel : nat) (payload : bytes) (z : K) : Prop :=
  exists n, n < fuel /\ first_usable (fun n => f_rand (f := K) (D (usize_be n ++ payload))) n z.

Lemma drawn_iff {K : field} D fuel payload (z : K) : drawn D fuel payload z <-> rand_challenge D fuel 0 payload = Ok z.
Proof.
  destruct (C20_rand_first_decodable K D fuel payload) as [[n [v [Hn [[Hv Hf] E]]]]|[Hn E]]; rewrite E.
  - split.
    + intros [m [Hm [Hz Hfm]]]. assert (m = n); [|subst; congruence].
      destruct (Nat.lt_trichotomy m n) as [Hl|[Hl|Hl]]; auto; [specialize (Hf m Hl)|specialize (Hfm n Hl)]; congruence.
    + intros [= <-]. exists n. split; [exact Hn|]. split; auto.
  - split; [|discriminate]. intros [m [Hm [Hz _]]]. specialize (Hn m Hm). congruence.
Qed.

Lemma hd_rev_last {A} (d : A) (l : list A) x : hd_error (rev l) = Some x <-> l <> [] /\ x = last l d.
Proof.
  destruct l as [|y l] using rev_ind; [split; [discriminate|intros [H _]; congruence]|].
  rewrite rev_app_distr, last_last. cbn. split; [intros [= <-]|intros [_ ->]; reflexivity].
  split; [destruct l; discriminate|reflexivity].
Qed.

(** the verifier key with trapdoors alpha, beta (what [get_verifier_key] returns, C21_keys) *)
Definition key_of {P} (alpha beta : pK P) : vsrs P := mk_vsrs (pr_g P) (pr_h P) (beta *m pr_g P) (alpha *m pr_h P).

(** The two openings of a TIPA proof hold at [z], for the round challenges [cs] (first round first). *)
Definition ck_openings_hold {P} {MA MB : module (pK P)} {OA OB OT : carrier (pK P)} (alpha beta : pK P)
    (proof : tipa_proof P MA MB OA OB OT) (cs : list (pK P)) (r z : pK P) : Prop :=
  fst (tp_final_ck proof) -m key_poly (map finv (rev cs)) (finv r) z *m pr_h P = (beta -f z) *m fst (tp_final_ck_proof proof) /\
  snd (tp_final_ck proof) -m key_poly (rev cs) f1 z *m pr_g P = (alpha -f z) *m snd (tp_final_ck_proof proof).

(** folding vectors ([IdentityOutput]) *)
Lemma common_length_rev {K} {OA OB : carrier K} {T : module K}
    (steps : list (com3 OA OB (identity_output T) * com3 OA OB (identity_output T))) : forall n,
  common_length n (rev steps) = common_length n steps.
Proof.
  assert (Hmin : forall (s : com3 OA OB (identity_output T) * com3 OA OB (identity_output T)) l n,
            common_length n (l ++ [s]) =
            Nat.min (common_length n l) (Nat.min (length (com_vec (fst s))) (length (com_vec (snd s))))).
  { intros s. induction l; intros n; [reflexivity|]. cbn [app common_length]. apply IHl. }
  assert (Hm : forall (l : list (com3 OA OB (identity_output T) * com3 OA OB (identity_output T))) n m,
            common_length (Nat.min n m) l = Nat.min (common_length n l) m).
  { induction l; intros n m; [reflexivity|]. cbn [common_length]. rewrite <- IHl. f_equal. lia. }
  induction steps as [|s steps IH]; intros n; [reflexivity|]. cbn [rev common_length].
  rewrite Hmin, IH, Hm. reflexivity.
Qed.

Lemma folded_identity {R} {K} {MA MB : module K} {OA OB : carrier K} {T : module K}
    (proof : gipa_proof MA MB OA OB (identity_output T)) (ct : list T) cs kt v :
  length cs = length (gp_steps proof) ->
  dh_commit (identity (R := R) T) [kt] [v] = Ok (cfold1 (O := identity_output T) com_t ct (rev (gp_steps proof)) cs) <->
  common_length (length ct) (gp_steps proof) = 1 /\ v = folded (fun c => at_ (com_vec c) 0) (at_ ct 0) proof cs.
Proof.
  intros Hcl.
  assert (Hid : cfold1 (O := identity_output T) com_t ct (rev (gp_steps proof)) cs =
              map (fun i => folded (fun c => at_ (com_vec c) i) (at_ ct i) proof cs)
                  (seq 0 (common_length (length ct) (gp_steps proof)))).
  { rewrite cfold1_identity by (rewrite rev_length; auto). rewrite common_length_rev.
    apply map_ext. intros i. unfold folded. f_equal.
    rewrite msum_big, zipw_length, rev_length, Hcl, Nat.min_id. apply big_ext. intros j Hj.
    unfold at_ at 1. etransitivity.
    { apply zipw_nth with (da := ((c0, c0, c0), (c0, c0, c0))) (db := f0); rewrite ?rev_length; lia. }
    unfold vec_term, fat, round. rewrite rev_nth by lia.
    now replace (length (gp_steps proof) - S j) with (length (gp_steps proof) - 1 - j) by lia. }
  cbn [dh_commit identity]. rewrite Hid. split.
  - intros E3. apply Ok_inj in E3.
    destruct (common_length (length ct) (gp_steps proof)) as [|[|n]] eqn:En; try discriminate.
    cbn in E3. injection E3 as E3. auto.
  - intros [-> ->]. reflexivity.
Qed.

(** ** C53 *)
Section C53.
  Context {R : Type} {P : pairing} {MA MB MT : module (pK P)}.
  Notation K := (pK P).
  Variables (D : bytes -> bytes) (fuel : nat).
  Hypothesis HD : digest16 D.

  Lemma tipa_verify_api {KT : module (pK P)} {OA OB OT : carrier (pK P)} (LMC : dhc R MA (pG2 P) OA) (RMC : dhc R MB (pG1 P) OB)
      (IPC : dhc R MT KT OT) (ip : list MA -> list MB -> res MT) alpha beta kt com proof r :
    tipa_verify_with_srs_shift LMC RMC IPC ip D fuel (key_of alpha beta) kt com proof r = Ok true <->
    exists cs z v, round_challenges D fuel f0 (rev (gp_steps (tp_gipa proof))) cs /\ cs <> [] /\ r <> f0 /\
      drawn D fuel (fser (last cs f0) ++ mser (fst (tp_final_ck proof)) ++ mser (snd (tp_final_ck proof))) z /\
      ck_openings_hold alpha beta proof cs r z /\
      ip [fst (gp_base (tp_gipa proof))] [snd (gp_base (tp_gipa proof))] = Ok v /\
      dh_commit LMC [fst (tp_final_ck proof)] [fst (gp_base (tp_gipa proof))]
        = Ok (cfold1 com_a (com_a com) (rev (gp_steps (tp_gipa proof))) cs) /\
      dh_commit RMC [snd (tp_final_ck proof)] [snd (gp_base (tp_gipa proof))]
        = Ok (cfold1 com_b (com_b com) (rev (gp_steps (tp_gipa proof))) cs) /\
      dh_commit IPC [kt] [v] = Ok (cfold1 com_t (com_t com) (rev (gp_steps (tp_gipa proof))) cs).
  Proof using HD.
    assert (HB : forall cs, gipa_verify_base LMC RMC IPC ip (fst (tp_final_ck proof)) (snd (tp_final_ck proof)) [kt]
                  (cfold com (rev (gp_steps (tp_gipa proof))) cs) (tp_gipa proof) = Ok true <->
      exists v, ip [fst (gp_base (tp_gipa proof))] [snd (gp_base (tp_gipa proof))] = Ok v /\
      dh_commit LMC [fst (tp_final_ck proof)] [fst (gp_base (tp_gipa proof))]
        = Ok (cfold1 com_a (com_a com) (rev (gp_steps (tp_gipa proof))) cs) /\
      dh_commit RMC [snd (tp_final_ck proof)] [snd (gp_base (tp_gipa proof))]
        = Ok (cfold1 com_b (com_b com) (rev (gp_steps (tp_gipa proof))) cs) /\
      dh_commit IPC [kt] [v] = Ok (cfold1 com_t (com_t com) (rev (gp_steps (tp_gipa proof))) cs)).
    { intros cs. unfold gipa_verify_base, cfold. destruct (gp_base (tp_gipa proof)) as [a b]. cbn [fst snd]. split.
      - intros H. apply rbind_ok in H as [v [Hv H]]. rewrite !rand_then_true, !dh_verify_true in H. eauto.
      - intros [v [Hv H]]. rewrite Hv. cbn [rbind]. now rewrite !rand_then_true, !dh_verify_true. }
    unfold ck_openings_hold. split.
    - intros H. destruct (tipa_verify_ok_inv D fuel LMC RMC IPC ip _ _ _ _ _ _ H) as [cs [c0 [z [H1 [H2 [H3 H4]]]]]].
      rewrite (tipa_verify_eq D fuel LMC RMC IPC ip _ _ _ _ _ _ _ _ H1 H2 H3 H4) in H.
      apply (hd_rev_last f0) in H2 as [H2 ->].
      apply rbind_ok in H as [va [Ha H]]. apply rbind_ok in H as [vb [Hb H]]. apply rbind_ok in H as [ok [Hk H]].
      assert (Hv : va && vb && ok = true) by congruence.
      apply andb_true_iff in Hv as [Hv ->]. apply andb_true_iff in Hv as [-> ->].
      apply C25_g2_check in Ha. apply C25_g1_check in Hb. apply HB in Hk as [v Hk].
      exists cs, z, v. split; [now apply round_challenges_chain|]. split; [exact H2|]. split; [exact H4|].
      split; [now apply drawn_iff|]. tauto.
    - intros [cs [z [v [H1 [H2 [H4 [H3 [[Ha Hb] Hk]]]]]]]]. apply round_challenges_chain in H1; auto.
      apply drawn_iff in H3.
      rewrite (tipa_verify_eq D fuel LMC RMC IPC ip _ _ _ _ _ cs (last cs f0) z H1 (proj2 (hd_rev_last f0 cs _) (conj H2 eq_refl)) H3 H4).
      apply (C25_g2_check alpha beta) in Ha. apply (C25_g1_check alpha beta) in Hb. unfold key_of. rewrite Ha, Hb. cbn [rbind].
      rewrite (proj2 (HB cs)) by eauto. reflexivity.
  Qed.

  Lemma challenges_length {OA OB OT : carrier (pK P)} (proof : gipa_proof MA MB OA OB OT) cs :
    round_challenges D fuel f0 (rev (gp_steps proof)) cs -> length cs = length (gp_steps proof).
  Proof using HD. intros H. apply round_challenges_chain in H; auto. apply chain_length in H. now rewrite rev_length in H. Qed.

  Theorem C53_tipa_accepts_iff_group {KT XA XB XT : module (pK P)}
      (LMC : dhc R MA (pG2 P) (mod_carrier XA)) (RMC : dhc R MB (pG1 P) (mod_carrier XB))
      (IPC : dhc R MT KT (mod_carrier XT)) (ip : list MA -> list MB -> res MT) alpha beta kt ca cb ct proof r :
    tipa_verify_with_srs_shift LMC RMC IPC ip D fuel (key_of alpha beta) kt (ca, cb, ct) proof r = Ok true <->
    exists cs z v, round_challenges D fuel f0 (rev (gp_steps (tp_gipa proof))) cs /\ cs <> [] /\ r <> f0 /\
      drawn D fuel (fser (last cs f0) ++ mser (fst (tp_final_ck proof)) ++ mser (snd (tp_final_ck proof))) z /\
      ck_openings_hold alpha beta proof cs r z /\
      ip [fst (gp_base (tp_gipa proof))] [snd (gp_base (tp_gipa proof))] = Ok v /\
      dh_commit LMC [fst (tp_final_ck proof)] [fst (gp_base (tp_gipa proof))] = Ok (folded grp_a ca (tp_gipa proof) cs) /\
      dh_commit RMC [snd (tp_final_ck proof)] [snd (gp_base (tp_gipa proof))] = Ok (folded grp_b cb (tp_gipa proof) cs) /\
      dh_commit IPC [kt] [v] = Ok (folded grp_t ct (tp_gipa proof) cs).
  Proof using HD.
    rewrite (tipa_verify_api LMC RMC IPC ip alpha beta kt (ca, cb, ct) proof r).
    split; intros [cs [z [v [Hch H]]]]; exists cs, z, v;
      (pose proof (challenges_length _ _ Hch) as Hcl); rewrite ?cfold1_folded in *; auto.
  Qed.

  (** the inner-product value committed by [IdentityCommitment] *)
  Theorem C53_tipa_accepts_iff_identity {XA XB : module (pK P)}
      (LMC : dhc R MA (pG2 P) (mod_carrier XA)) (RMC : dhc R MB (pG1 P) (mod_carrier XB))
      (ip : list MA -> list MB -> res MT) alpha beta kt ca cb ct proof r :
    tipa_verify_with_srs_shift LMC RMC (identity MT) ip D fuel (key_of alpha beta) kt (ca, cb, ct) proof r = Ok true <->
    exists cs z v, round_challenges D fuel f0 (rev (gp_steps (tp_gipa proof))) cs /\ cs <> [] /\ r <> f0 /\
      drawn D fuel (fser (last cs f0) ++ mser (fst (tp_final_ck proof)) ++ mser (snd (tp_final_ck proof))) z /\
      ck_openings_hold alpha beta proof cs r z /\
      ip [fst (gp_base (tp_gipa proof))] [snd (gp_base (tp_gipa proof))] = Ok v /\
      dh_commit LMC [fst (tp_final_ck proof)] [fst (gp_base (tp_gipa proof))] = Ok (folded grp_a ca (tp_gipa proof) cs) /\
      dh_commit RMC [snd (tp_final_ck proof)] [snd (gp_base (tp_gipa proof))] = Ok (folded grp_b cb (tp_gipa proof) cs) /\
      common_length (length ct) (gp_steps (tp_gipa proof)) = 1 /\
      v = folded (fun c => at_ (com_vec c) 0) (at_ ct 0) (tp_gipa proof) cs.
  Proof using HD.
    rewrite (tipa_verify_api LMC RMC (identity MT) ip alpha beta kt (ca, cb, ct) proof r).
    split; intros [cs [z [v [Hch H]]]]; exists cs, z, v;
      (pose proof (challenges_length _ _ Hch) as Hcl); change (com_t (ca, cb, ct)) with ct in *;
      rewrite (folded_identity (R := R)) in * by auto; rewrite ?cfold1_folded in *; auto.
  Qed.
End C53.
Print Assumptions C53_tipa_accepts_iff_group.
Print Assumptions C53_tipa_accepts_iff_identity.

(** [TIPA::verify] with the commitments of the pairing instantiation written out (the one used by the
    Groth16 aggregator) *)
Theorem C53_pairing_instance R (P : pairing) (E : penv) (r1 : sampler R (pG1 P)) (r2 : sampler R (pG2 P))
    D fuel alpha beta (kt : unitmod (pK P)) ca cb t proof r :
  1 <= threads E -> digest16 D ->
  let a := fst (gp_base (tp_gipa proof)) in let b := snd (gp_base (tp_gipa proof)) in
  let cka := fst (tp_final_ck proof) in let ckb := snd (tp_final_ck proof) in
  tipa_verify_with_srs_shift (afgho_g1 P E r2) (afgho_g2 P E r1) (identity (pGT P)) (pairing_ip P E) D fuel
    (key_of alpha beta) kt (ca, cb, [t]) proof r = Ok true <->
  exists cs z, round_challenges D fuel f0 (rev (gp_steps (tp_gipa proof))) cs /\ cs <> [] /\ r <> f0 /\
    drawn D fuel (fser (last cs f0) ++ mser cka ++ mser ckb) z /\
    ck_openings_hold alpha beta proof cs r z /\
    pr_e P a cka = folded grp_a ca (tp_gipa proof) cs /\
    pr_e P ckb b = folded grp_b cb (tp_gipa proof) cs /\
    pr_e P a b = folded (fun c => at_ (com_vec c) 0) t (tp_gipa proof) cs /\
    (forall j, j < length (gp_steps (tp_gipa proof)) ->
       com_vec (fst (round (tp_gipa proof) j)) <> [] /\ com_vec (snd (round (tp_gipa proof) j)) <> []).
Proof.
  intros HE HD a b cka ckb. rewrite (C53_tipa_accepts_iff_identity D fuel HD). cbn [dh_commit afgho_g1 afgho_g2].
  assert (Hip : forall x y, pairing_ip P E [x] [y] = Ok (pr_e P x y)).
  { intros x y. rewrite C01_pairing_inner_product by auto. unfold pairing_sum. cbn. f_equal. apply madd_0_l. }
  assert (Hlen : common_length (length [t]) (gp_steps (tp_gipa proof)) = 1 <->
    (forall j, j < length (gp_steps (tp_gipa proof)) ->
       com_vec (fst (round (tp_gipa proof) j)) <> [] /\ com_vec (snd (round (tp_gipa proof) j)) <> [])).
  { change (length [t]) with 1. unfold round. generalize (gp_steps (tp_gipa proof)). intros steps.
    transitivity (forall s, In s steps -> com_vec (fst s) <> [] /\ com_vec (snd s) <> []).
    - induction steps as [|s steps IH]; [split; [intros _ s []|reflexivity]|]. cbn [common_length].
      destruct (com_vec (fst s)) as [|x xs] eqn:E1; [|destruct (com_vec (snd s)) as [|y ys] eqn:E2].
      + cbn [length Nat.min]. split.
        * intros H. pose proof (common_length_le steps 0). lia.
        * intros H. specialize (H s (or_introl eq_refl)). rewrite E1 in H. tauto.
      + cbn [length Nat.min]. split.
        * intros H. pose proof (common_length_le steps 0). lia.
        * intros H. specialize (H s (or_introl eq_refl)). rewrite E2 in H. tauto.
      + cbn [length Nat.min]. rewrite IH. split.
        * intros H s' [<-|Hs]; auto. rewrite E1, E2. split; discriminate.
        * intros H s' Hs. apply H. now right.
    - split.
      + intros H j Hj. apply H. apply nth_In. lia.
      + intros H s Hs. apply (In_nth _ _ (c0, c0, c0, (c0, c0, c0))) in Hs as [i [Hi <-]].
        assert (Hi' : i < length steps) by exact Hi. clear Hi.
        specialize (H (length steps - 1 - i) ltac:(lia)).
        replace (length steps - 1 - (length steps - 1 - i)) with i in H by lia. exact H. }
  split.
  - intros [cs [z [v [H1 [H2 [H3 [H4 [H5 [Hv [Ha [Hb [Hl Ht]]]]]]]]]]]]. exists cs, z.
    rewrite Hip in Ha, Hv. rewrite Hip in Hb. apply Ok_inj in Ha, Hb, Hv. subst v. pose proof (proj1 Hlen Hl) as Hl'. repeat (split; auto).
  - intros [cs [z [H1 [H2 [H3 [H4 [H5 [Ha [Hb [Ht Hl]]]]]]]]]]. exists cs, z, (pr_e P a b).
    pose proof (proj2 Hlen Hl) as Hl'. unfold a, b, cka, ckb in *. rewrite !Hip, Ha, Hb. repeat (split; auto).
Qed.
Print Assumptions C53_pairing_instance.

(** ** C54, C55 *)
(** prod_j (1 + c_(k-1-j)^-1 b^(2^j)): the right message 1, b, b^2, ... folded by the challenges *)
Definition folded_powers {K : field} (cs : list K) (b : K) : K :=
  fprod (length cs) (fun j => f1 +f finv (fat (rev cs) j) *f fpow b (2 ^ j)).

Lemma folded_powers_eq {K : field} (cs : list K) b :
  poly_evaluate (subs (map finv (rev cs))) b = folded_powers cs b.
Proof.
  unfold folded_powers. etransitivity; [apply ev_subs|]. rewrite prod_terms, map_length, rev_length.
  apply fprod_ext. intros j Hj. do 2 f_equal.
  unfold fat. rewrite (nth_indep _ f0 (finv f0)) by (rewrite map_length, rev_length; auto). apply map_nth.
Qed.

Section C54.
  Context {R : Type} {P : pairing} {MA MT : module (pK P)}.
  Notation K := (pK P).
  Variables (D : bytes -> bytes) (fuel : nat) (E : penv).
  Hypothesis HD : digest16 D.

  Theorem C54_tssm_accepts_iff {XA : module (pK P)} (LMC : dhc R MA (pG2 P) (mod_carrier XA))
      (ip : list MA -> list (fmod K) -> res MT) alpha beta kt ca ct b proof :
    tssm_verify LMC (identity MT) ip D fuel E (key_of alpha beta) kt (ca, ct) b proof = Ok true <->
    exists cs z v, round_challenges D fuel f0 (rev (gp_steps (ts_gipa proof))) cs /\ cs <> [] /\
      drawn D fuel (fser (last cs f0) ++ mser (ts_final_ck proof)) z /\
      ts_final_ck proof -m key_poly (map finv (rev cs)) f1 z *m pr_h P = (beta -f z) *m ts_final_ck_proof proof /\
      ip [fst (gp_base (ts_gipa proof))] [folded_powers cs b] = Ok v /\
      dh_commit LMC [ts_final_ck proof] [fst (gp_base (ts_gipa proof))] = Ok (folded grp_a ca (ts_gipa proof) cs) /\
      common_length (length ct) (gp_steps (ts_gipa proof)) = 1 /\
      v = folded (fun c => at_ (com_vec c) 0) (at_ ct 0) (ts_gipa proof) cs.
  Proof using HD.
    split.
    - intros H. destruct (tssm_verify_ok_inv D fuel E LMC (identity MT) ip _ _ _ _ _ _ H) as [cs [c0 [z [H1 [H2 H3]]]]].
      rewrite (tssm_verify_eq D fuel E LMC (identity MT) ip _ _ _ _ _ _ _ _ _ H1 H2 H3) in H.
      apply (hd_rev_last f0) in H2 as [H2 ->].
      apply rbind_ok in H as [va [Ha H]]. apply rbind_ok in H as [v [Hip H]]. apply rbind_ok in H as [ok [Hk H]].
      assert (Hv : va && ok = true) by congruence. apply andb_true_iff in Hv as [-> ->].
      apply C25_g2_check in Ha. rewrite rand_then_true, !dh_verify_true in Hk. destruct Hk as [K1 K2].
      pose proof (chain_length _ _ _ _ _ H1) as Hcl. rewrite rev_length in Hcl.
      rewrite (folded_identity (R := R)) in K2 by auto. rewrite cfold1_folded in K1 by auto.
      rewrite folded_powers_eq in Hip.
      exists cs, z, v. split; [now apply round_challenges_chain|]. split; [exact H2|].
      split; [now apply drawn_iff|]. auto.
    - intros [cs [z [v [H1 [H2 [H3 [Ha [Hip [K1 K2]]]]]]]]]. apply round_challenges_chain in H1; auto.
      apply drawn_iff in H3.
      rewrite (tssm_verify_eq D fuel E LMC (identity MT) ip _ _ _ _ _ _ cs (last cs f0) z H1 (proj2 (hd_rev_last f0 cs _) (conj H2 eq_refl)) H3).
      apply (C25_g2_check alpha beta) in Ha. unfold key_of. rewrite Ha. cbn [rbind].
      rewrite folded_powers_eq. rewrite Hip. cbn [rbind].
      pose proof (chain_length _ _ _ _ _ H1) as Hcl. rewrite rev_length in Hcl.
      match goal with |- context [rand_then ?x ?y] => assert (Hr : rand_then x y = Ok true) end.
      { rewrite rand_then_true, !dh_verify_true. rewrite (folded_identity (R := R)) by auto. rewrite cfold1_folded by auto. auto. }
      rewrite Hr. reflexivity.
  Qed.
End C54.
Print Assumptions C54_tssm_accepts_iff.

Section C55.
  Context {R : Type} {K : field} {MA MT KA : module K}.
  Variables (D : bytes -> bytes) (fuel : nat) (E : penv).
  Hypothesis HD : digest16 D.

  (** The second component of the proof's rounds is a scalar that the code never looks at except here:
      it has to fold to zero. *)
  Theorem C55_gssm_accepts_iff {XA : module K} (LMC : dhc R MA KA (mod_carrier XA))
      (ip : list MA -> list (fmod K) -> res MT) ka kt ca ct b proof :
    gssm_verify LMC (identity MT) ip D fuel E (ka, kt) (ca, ct) b proof = Ok true <->
    exists cs v v', round_challenges D fuel f0 (rev (gp_steps proof)) cs /\
      length ka = 2 ^ length (gp_steps proof) /\
      dh_commit LMC [folded_key ka (map finv cs)] [fst (gp_base proof)] = Ok (folded grp_a ca proof cs) /\
      folded (M := fmod K) grp_b (f0 : fmod K) proof cs = f0 /\
      ip [fst (gp_base proof)] [snd (gp_base proof)] = Ok v /\
      ip [fst (gp_base proof)] [folded_powers cs b] = Ok v' /\
      common_length (length ct) (gp_steps proof) = 1 /\
      v = folded (fun c => at_ (com_vec c) 0) (at_ ct 0) proof cs /\
      v' = folded (fun c => at_ (com_vec c) 0) (at_ ct 0) proof cs.
  Proof using HD.
    assert (Hkey : forall cs, chain D fuel f0 (rev (gp_steps proof)) cs -> length ka = 2 ^ length (gp_steps proof) ->
              exists kb, gipa_final_keys ka (repeat (tt : unitmod K) (length ka)) (rev cs) = Ok (folded_key ka (map finv cs), kb)).
    { intros cs Hch Hla. pose proof (chain_length _ _ _ _ _ Hch) as Hcl. rewrite rev_length in Hcl.
      assert (Hka : length ka = 2 ^ length (map finv (rev cs))) by (rewrite map_length, rev_length; congruence).
      exists (dot smul (repeat (tt : unitmod K) (length ka)) (subs (rev cs) : list (fmod K))).
      rewrite final_keys_ok.
      - rewrite dot_subs by exact Hka. unfold folded_key. rewrite map_rev. reflexivity.
      - rewrite rev_length. congruence.
      - rewrite Hla. pose proof (Nat.pow_nonzero 2 (length (gp_steps proof))). destruct (2 ^ length (gp_steps proof)); [lia|discriminate].
      - apply Forall_rev. eapply chain_nonzero; eauto. }
    unfold gssm_verify. cbn [fst snd]. split.
    - intros H. apply rbind_ok in H as [[bc T] [H1 H]].
      apply recursive_challenges_inv in H1 as [cs [Hch [-> ->]]].
      apply rbind_ok in H as [[fa fb] [H2 H]].
      pose proof (final_keys_inv _ _ _ _ H2) as [Hl [Hne Hnr]].
      pose proof (chain_length _ _ _ _ _ Hch) as Hcl. rewrite rev_length in Hcl. rewrite rev_length, Hcl in Hl.
      destruct (Hkey cs Hch Hl) as [kb Hkb]. rewrite Hkb in H2. injection H2 as <- <-.
      apply rbind_ok in H as [gv [H3 H]]. apply rbind_ok in H as [bb [H4 H]].
      rewrite final_scalar_ok in H4 by auto. apply Ok_inj in H4. rewrite folded_powers_eq in H4. subst bb.
      cbn [cfold] in H. apply rbind_ok in H as [v' [Hv' H]].
      apply rbind_ok in H as [bv [H5 H]]. assert (Hgb : gv && bv = true) by congruence. apply andb_true_iff in Hgb as [-> ->].
      unfold gipa_verify_base in H3. destruct (gp_base proof) as [a b'] eqn:Eb. cbn [cfold fst snd] in *.
      apply rbind_ok in H3 as [v [Hv H3]]. rewrite !rand_then_true, !dh_verify_true in H3. rewrite !rand_then_true, !dh_verify_true in H5.
      destruct H3 as [G1 [G2 G3]]. destruct H5 as [_ G5].
      rewrite (folded_identity (R := R)) in G3 by auto. rewrite (folded_identity (R := R)) in G5 by auto.
      rewrite cfold1_folded in G1 by auto. rewrite cfold1_folded in G2 by auto.
      exists cs, v, v'. split; [now apply round_challenges_chain|]. split; [exact Hl|]. split; [exact G1|].
      split; [cbn [dh_commit ssm_placeholder] in G2; apply Ok_inj in G2; symmetry; exact G2|]. tauto.
    - intros [cs [v [v' [Hch [Hl [G1 [G2 [Hv [Hv' [Hcm [E1 E2]]]]]]]]]]]. apply round_challenges_chain in Hch; auto.
      rewrite (recursive_challenges_chain D fuel _ proof cs Hch). cbn [rbind].
      destruct (Hkey cs Hch Hl) as [kb Hkb]. rewrite Hkb. cbn [rbind].
      pose proof (chain_length _ _ _ _ _ Hch) as Hcl. rewrite rev_length in Hcl.
      unfold gipa_verify_base. destruct (gp_base proof) as [a b'] eqn:Eb. cbn [fst snd cfold] in *.
      rewrite Hv. cbn [rbind].
      match goal with |- context [rand_then ?x (rand_then ?y ?w)] => assert (Hr : rand_then x (rand_then y w) = Ok true) end.
      { rewrite !rand_then_true, !dh_verify_true. rewrite (folded_identity (R := R)) by auto.
        repeat split; auto.
        - rewrite cfold1_folded by auto. exact G1.
        - cbn [dh_commit ssm_placeholder]. f_equal. rewrite cfold1_folded by auto. symmetry. exact G2. }
      rewrite Hr. cbn [rbind].
      rewrite final_scalar_ok by (apply Forall_rev; eapply chain_nonzero; eauto). cbn [rbind].
      rewrite folded_powers_eq.
      match goal with |- context [ip ?x ?y] => replace (ip x y) with (Ok v' : res MT) by (symmetry; exact Hv') end.
      cbn [rbind].
      match goal with |- context [rand_then ?x ?y] => assert (Hs : rand_then x y = Ok true) end.
      { rewrite !rand_then_true, !dh_verify_true. rewrite (folded_identity (R := R)) by auto.
        repeat split; auto. rewrite cfold1_folded by auto. exact G1. }
      rewrite Hs. reflexivity.
  Qed.
End C55.
Print Assumptions C55_gssm_accepts_iff.

(** ** C56 *)
Lemma round_challenges_fun {K : field} {OA OB OT : carrier K} D fuel (prev : K)
    (steps : list (com3 OA OB OT * com3 OA OB OT)) cs cs' : digest16 D ->
  round_challenges D fuel prev steps cs -> round_challenges D fuel prev steps cs' -> cs' = cs.
Proof. intros HD H H'. rewrite round_challenges_chain in H, H' by auto. eapply chain_fun; eauto. Qed.

Section C56.
  Context {R : Type} {P : pairing} {MA MB MT KT : module (pK P)} {OA OB OT : carrier (pK P)}.
  Notation K := (pK P).
  Add Field KfC56 : (f_theory (pK P)).
  Variables (D : bytes -> bytes) (fuel : nat).
  Hypothesis HD : digest16 D.
  Variables (LMC : dhc R MA (pG2 P) OA) (RMC : dhc R MB (pG1 P) OB) (IPC : dhc R MT KT OT) (ip : list MA -> list MB -> res MT).
  Variables (s : srs P) (alpha beta : K) (ka : list (pG2 P)) (kb : list (pG1 P)) (r : K).

  (** folding the SRS keys is evaluating the key polynomials at the trapdoors *)
  Lemma folded_keys_eval n cs : 0 < n -> srs_ok s alpha beta n -> get_commitment_keys s = (ka, kb) -> n = 2 ^ length cs ->
    length ka = n /\ length kb = n /\ length (shift_vec (finv r) ka) = n /\
    folded_key (shift_vec (finv r) ka) (map finv cs) = key_poly (map finv (rev cs)) (finv r) beta *m pr_h P /\
    folded_key kb cs = key_poly (rev cs) f1 alpha *m pr_g P.
  Proof.
    intros Hn Hs Hk Hl. destruct (C21_keys s alpha beta n Hn Hs) as [[ka' [kb' [Ek [La [Lb Hi]]]]] _].
    rewrite Hk in Ek. injection Ek as <- <-.
    assert (Ls : length (shift_vec (finv r) ka) = n) by (unfold shift_vec; rewrite map_length, seq_length; auto).
    split; [exact La|]. split; [exact Lb|]. split; [exact Ls|].
    rewrite <- !product_form_spec, <- !folded_srs_key_eval. unfold folded_key, folded_srs_key.
    rewrite Ls, Lb, map_length, rev_length, Hl. split; apply big_ext; intros i Hi'; rewrite <- Hl in Hi'.
    - rewrite map_rev. unfold shift_vec. rewrite (at_map_seq (fun i => fpow (finv r) i *m at_ ka i)) by lia.
      rewrite (proj1 (Hi i Hi')). f_equal. rewrite <- mscale_mul. f_equal. ring.
    - rewrite (proj2 (Hi i Hi')), fpow_1_l. f_equal. f_equal. ring.
  Qed.

  (** With the right final keys TIPA accepts only what GIPA accepts with the full keys ... *)
  Theorem C56_right_keys_sound n kt com proof cs :
    srs_ok s alpha beta n -> get_commitment_keys s = (ka, kb) -> n = 2 ^ length (gp_steps (tp_gipa proof)) ->
    round_challenges D fuel f0 (rev (gp_steps (tp_gipa proof))) cs ->
    tp_final_ck proof = (folded_key (shift_vec (finv r) ka) (map finv cs), folded_key kb cs) ->
    tipa_verify_with_srs_shift LMC RMC IPC ip D fuel (key_of alpha beta) kt com proof r = Ok true ->
    gipa_verify LMC RMC IPC ip D fuel (shift_vec (finv r) ka, kb, kt) com (tp_gipa proof) = Ok true.
  Proof using HD.
    intros Hs Hk Hn Hch Hck H. apply (tipa_verify_api D fuel HD) in H as [cs' [z [v [H1 [H2 [H3 [H4 [H5 [Hv [G1 [G2 G3]]]]]]]]]]].
    assert (cs' = cs) as -> by (eapply round_challenges_fun; eauto).
    pose proof (challenges_length D fuel HD _ _ Hch) as Hcl.
    destruct (folded_keys_eval n cs) as [La [Lb [Ls _]]]; auto; [rewrite Hn; apply pow2_pos|congruence|].
    apply gipa_verify_api; auto. rewrite Hck in *. cbn [fst snd] in *.
    exists cs, v. rewrite Ls, Lb. auto 10.
  Qed.

  (** ... and all of it, when the openings hold. *)
  Theorem C56_right_keys_complete n kt com proof cs z :
    srs_ok s alpha beta n -> get_commitment_keys s = (ka, kb) -> n = 2 ^ length (gp_steps (tp_gipa proof)) ->
    round_challenges D fuel f0 (rev (gp_steps (tp_gipa proof))) cs -> cs <> [] -> r <> f0 ->
    tp_final_ck proof = (folded_key (shift_vec (finv r) ka) (map finv cs), folded_key kb cs) ->
    drawn D fuel (fser (last cs f0) ++ mser (fst (tp_final_ck proof)) ++ mser (snd (tp_final_ck proof))) z ->
    ck_openings_hold alpha beta proof cs r z ->
    gipa_verify LMC RMC IPC ip D fuel (shift_vec (finv r) ka, kb, kt) com (tp_gipa proof) = Ok true ->
    tipa_verify_with_srs_shift LMC RMC IPC ip D fuel (key_of alpha beta) kt com proof r = Ok true.
  Proof using HD.
    intros Hs Hk Hn Hch Hne Hr Hck Hz Ho H. apply gipa_verify_api in H as [cs' [v [H1 [La [Lb [Hv [G1 [G2 G3]]]]]]]]; auto.
    assert (cs' = cs) as -> by (eapply round_challenges_fun; eauto).
    apply (tipa_verify_api D fuel HD). exists cs, z, v. rewrite Hck in *. cbn [fst snd] in *. auto 15.
  Qed.

  (** The four ways in which a proof whose keys and openings are known combinations of the SRS can be
      accepted although GIPA rejects. *)
  Theorem C56_algebraic_soundness n kt com proof pa qa pb qb :
    pr_h P <> m0 -> pr_g P <> m0 ->
    srs_ok s alpha beta n -> get_commitment_keys s = (ka, kb) -> n = 2 ^ length (gp_steps (tp_gipa proof)) ->
    tp_final_ck proof = (poly_at pa beta *m pr_h P, poly_at pb alpha *m pr_g P) ->
    tp_final_ck_proof proof = (poly_at qa beta *m pr_h P, poly_at qb alpha *m pr_g P) ->
    tipa_verify_with_srs_shift LMC RMC IPC ip D fuel (key_of alpha beta) kt com proof r = Ok true ->
    gipa_verify LMC RMC IPC ip D fuel (shift_vec (finv r) ka, kb, kt) com (tp_gipa proof) = Ok true \/
    exists cs z, round_challenges D fuel f0 (rev (gp_steps (tp_gipa proof))) cs /\
      drawn D fuel (fser (last cs f0) ++ mser (fst (tp_final_ck proof)) ++ mser (snd (tp_final_ck proof))) z /\
      let fa := key_poly (map finv (rev cs)) (finv r) in let fb := key_poly (rev cs) f1 in
      ((exists x, poly_at pa x <> fa x) /\ poly_at pa z = fa z \/
       (exists x, poly_at pb x <> fb x) /\ poly_at pb z = fb z \/
       ((exists c, In c (check_poly pa qa z (fa z)) /\ c <> f0) /\ poly_at (check_poly pa qa z (fa z)) beta = f0) \/
       ((exists c, In c (check_poly pb qb z (fb z)) /\ c <> f0) /\ poly_at (check_poly pb qb z (fb z)) alpha = f0)).
  Proof using HD.
    intros Hh Hg Hs Hk Hn Hck Hop H.
    pose proof (proj1 (tipa_verify_api D fuel HD _ _ _ _ _ _ _ _ _ _) H) as [cs [z [v [H1 [H2 [H3 [H4 [[Oa Ob] _]]]]]]]].
    pose proof (challenges_length D fuel HD _ _ H1) as Hcl.
    rewrite Hck, Hop in Oa, Ob. cbn [fst snd] in Oa, Ob.
    destruct (folded_keys_eval n cs) as [La [Lb [Ls [Ea Eb]]]]; auto; [rewrite Hn; apply pow2_pos|congruence|].
    set (fa := key_poly (map finv (rev cs)) (finv r)) in *. set (fb := key_poly (rev cs) f1) in *.
    destruct (f_eq_dec _ (poly_at pa z) (fa z)) as [Ez|Ez].
    2:{ right. exists cs, z. split; [auto|]. split; [auto|]. cbn zeta. right. right. left.
        split; [now apply check_poly_nonzero|]. apply (check_poly_root (pr_h P)); auto. }
    destruct (f_eq_dec _ (poly_at pb z) (fb z)) as [Fz|Fz].
    2:{ right. exists cs, z. split; [auto|]. split; [auto|]. cbn zeta. right. right. right.
        split; [now apply check_poly_nonzero|]. apply (check_poly_root (pr_g P)); auto. }
    destruct (f_eq_dec _ (poly_at pa beta) (fa beta)) as [Eb'|Eb'].
    2:{ right. exists cs, z. split; [auto|]. split; [auto|]. cbn zeta. left. eauto. }
    destruct (f_eq_dec _ (poly_at pb alpha) (fb alpha)) as [Fb'|Fb'].
    2:{ right. exists cs, z. split; [auto|]. split; [auto|]. cbn zeta. right. left. eauto. }
    left. eapply C56_right_keys_sound; eauto. rewrite Hck, Ea, Eb, Eb', Fb'. reflexivity.
  Qed.
End C56.
Print Assumptions C56_right_keys_sound.
Print Assumptions C56_right_keys_complete.
Print Assumptions C56_algebraic_soundness.

(** [TIPAWithSSM] and [GIPAWithSSM] as the polynomial commitments and the Groth16 aggregator use them:
    AFGHO commitments to G1 elements, multiexponentiation. *)
Lemma multiexp_single {K : field} (G : module K) (a : G) (s : fmod K) : multiexp_ip G [a] [s] = Ok (s *m a).
Proof.
  destruct (C02_multiexp_outcome K G [a] [s]) as [[H _]|[_ H]]; [cbn in H; congruence|]. rewrite H. f_equal.
  unfold msm_sum. cbn. apply madd_0_l.
Qed.
Lemma afgho_single (P : pairing) (E : penv) R (r2 : sampler R (pG2 P)) k a : 1 <= threads E ->
  dh_commit (afgho_g1 P E r2) [k] [a] = Ok (pr_e P a k).
Proof.
  intros HE. cbn [dh_commit afgho_g1]. rewrite C01_pairing_inner_product by auto. unfold pairing_sum. cbn. f_equal. apply madd_0_l.
Qed.

Theorem C54_multiexp_instance R (P : pairing) (E : penv) (r2 : sampler R (pG2 P)) D fuel alpha beta (kt : unitmod (pK P))
    ca ct b proof :
  1 <= threads E -> digest16 D ->
  let a := fst (gp_base (ts_gipa proof)) in let ck := ts_final_ck proof in
  tssm_verify (afgho_g1 P E r2) (identity (pG1 P)) (multiexp_ip (pG1 P)) D fuel E (key_of alpha beta) kt (ca, ct) b proof = Ok true <->
  exists cs z, round_challenges D fuel f0 (rev (gp_steps (ts_gipa proof))) cs /\ cs <> [] /\
    drawn D fuel (fser (last cs f0) ++ mser ck) z /\
    ck -m key_poly (map finv (rev cs)) f1 z *m pr_h P = (beta -f z) *m ts_final_ck_proof proof /\
    pr_e P a ck = folded grp_a ca (ts_gipa proof) cs /\
    common_length (length ct) (gp_steps (ts_gipa proof)) = 1 /\
    folded_powers cs b *m a = folded (fun c => at_ (com_vec c) 0) (at_ ct 0) (ts_gipa proof) cs.
Proof.
  intros HE HD a ck. rewrite (C54_tssm_accepts_iff D fuel E HD). fold a ck. split.
  - intros [cs [z [v [H1 [H2 [H3 [H4 [H5 [H6 [H7 H8]]]]]]]]]]. exists cs, z.
    pose proof (Ok_inj _ _ (eq_trans (eq_sym H5) (multiexp_single (pG1 P) a (folded_powers cs b)))) as ->.
    rewrite afgho_single in H6 by auto. apply Ok_inj in H6. auto 10.
  - intros [cs [z [H1 [H2 [H3 [H4 [H5 [H6 H7]]]]]]]]. exists cs, z, (folded_powers cs b *m a).
    rewrite afgho_single by auto. rewrite H5. pose proof (multiexp_single (pG1 P) a (folded_powers cs b)). auto 10.
Qed.
Print Assumptions C54_multiexp_instance.

Theorem C55_multiexp_instance R (P : pairing) (E : penv) (r2 : sampler R (pG2 P)) D fuel ka (kt : unitmod (pK P))
    ca ct b proof :
  1 <= threads E -> digest16 D ->
  let a := fst (gp_base proof) in
  gssm_verify (afgho_g1 P E r2) (identity (pG1 P)) (multiexp_ip (pG1 P)) D fuel E (ka, kt) (ca, ct) b proof = Ok true <->
  exists cs, round_challenges D fuel f0 (rev (gp_steps proof)) cs /\ length ka = 2 ^ length (gp_steps proof) /\
    pr_e P a (folded_key ka (map finv cs)) = folded grp_a ca proof cs /\
    folded (M := fmod (pK P)) grp_b (f0 : fmod (pK P)) proof cs = f0 /\
    common_length (length ct) (gp_steps proof) = 1 /\
    snd (gp_base proof) *m a = folded (fun c => at_ (com_vec c) 0) (at_ ct 0) proof cs /\
    folded_powers cs b *m a = folded (fun c => at_ (com_vec c) 0) (at_ ct 0) proof cs.
Proof.
  intros HE HD a. rewrite (C55_gssm_accepts_iff D fuel E HD). fold a. split.
  - intros [cs [v [v' [H1 [H2 [H3 [H4 [H5 [H6 [H7 [H8 H9]]]]]]]]]]]. exists cs.
    pose proof (Ok_inj _ _ (eq_trans (eq_sym H5) (multiexp_single (pG1 P) a (snd (gp_base proof))))) as ->.
    pose proof (Ok_inj _ _ (eq_trans (eq_sym H6) (multiexp_single (pG1 P) a (folded_powers cs b)))) as ->.
    rewrite afgho_single in H3 by auto. apply Ok_inj in H3. auto 10.
  - intros [cs [H1 [H2 [H3 [H4 [H5 [H6 H7]]]]]]]. exists cs, (snd (gp_base proof) *m a), (folded_powers cs b *m a).
    rewrite afgho_single by auto. rewrite H3. pose proof (multiexp_single (pG1 P) a (snd (gp_base proof))).
    pose proof (multiexp_single (pG1 P) a (folded_powers cs b)). auto 12.
Qed.
Print Assumptions C55_multiexp_instance.

(** ** C57 *)
Section C57.
  Context {R : Type} (P : pairing) (E : penv) (r1 : sampler R (pG1 P)) (r2 : sampler R (pG2 P)).
  Variables (D : bytes -> bytes) (fuel : nat).
  Notation tverify := (tipa_verify_with_srs_shift (afgho_g1 P E r2) (afgho_g2 P E r1) (identity (pGT P)) (pairing_ip P E) D fuel).
  Notation sverify := (tssm_verify (afgho_g1 P E r2) (identity (pG1 P)) (multiexp_ip (pG1 P)) D fuel E).

  (** Without rounds [transcript.first().unwrap()] panics, for every verifier key, statement and shift. *)
  Theorem C57_tipa_no_rounds_refuted v kt com proof r : gp_steps (tp_gipa proof) = [] -> tverify v kt com proof r = Panic.
  Proof. intros H. unfold tipa_verify_with_srs_shift, gipa_recursive_challenges. rewrite H. destruct (tp_final_ck proof), (tp_final_ck_proof proof). reflexivity. Qed.

  Theorem C57_tssm_no_rounds_refuted v kt com b proof : gp_steps (ts_gipa proof) = [] -> sverify v kt com b proof = Panic.
  Proof. apply tssm_size1_verify. Qed.

  (** The shift 0 has no inverse: no proof is answered. *)
  Theorem C57_tipa_zero_shift_refuted v kt com proof b : tverify v kt com proof f0 <> Ok b.
  Proof. intros H. apply tipa_verify_ok_inv in H as [cs [c0 [c [_ [_ [_ H]]]]]]. congruence. Qed.

  (** All other proofs are answered, unless the fuel runs out in the loops that look for a nonce. *)
  Theorem C57_tipa_partial v kt com proof r : 1 <= threads E -> digest16 D -> gp_steps (tp_gipa proof) <> [] -> r <> f0 ->
    tverify v kt com proof r = Loop \/ exists b, tverify v kt com proof r = Ok b.
  Proof.
    intros HE HD. apply (tipa_verify_total D fuel mid mid idout (phi_g1 P) (pr_e P) psi_id (pr_e P)); auto.
    - now apply afgho_g1_law.
    - now apply afgho_g2_law.
    - apply identity_law.
    - now apply pairing_ip_law.
  Qed.

  Theorem C57_tssm_partial v kt com b proof : 1 <= threads E -> digest16 D -> gp_steps (ts_gipa proof) <> [] ->
    sverify v kt com b proof = Loop \/ exists x, sverify v kt com b proof = Ok x.
  Proof.
    intros HE HD. apply (tssm_verify_total D fuel E mid idout (phi_g1 P) psi_id smul); auto.
    - now apply afgho_g1_law.
    - apply identity_law.
    - apply multiexp_ip_law.
  Qed.
End C57.
Print Assumptions C57_tipa_no_rounds_refuted.
Print Assumptions C57_tssm_no_rounds_refuted.
Print Assumptions C57_tipa_zero_shift_refuted.
Print Assumptions C57_tipa_partial.
Print Assumptions C57_tssm_partial.

(** ** Runs of size 4 *)
Definition ex_tamper (f : tipa_proof ZPair ZM ZM (mod_carrier ZM) (mod_carrier ZM) (identity_output ZM) ->
                          tipa_proof ZPair ZM ZM (mod_carrier ZM) (mod_carrier ZM) (identity_output ZM)) : res bool :=
  do s <- ex_srs 4; do v <- get_verifier_key s;
  let '(ka, kb) := get_commitment_keys s in
  do p <- ex_tprove s (ex_a, ex_b) (ka, kb, tt) f1;
  ex_tverify v tt (ex_tcom ka kb ex_a) (f p) f1.
Definition ex_add1 (x : zp) : zp := fadd (f := ZP) x (zq 1).
Definition ex_bump1 (x : zp * zp) : zp * zp := (ex_add1 (fst x), snd x).
Definition ex_bump2 (x : zp * zp) : zp * zp := (fst x, ex_add1 (snd x)).
Definition ex_base (f : zp * zp -> zp * zp) (p : gipa_proof ZM ZM (mod_carrier ZM) (mod_carrier ZM) (identity_output ZM))
  : gipa_proof ZM ZM (mod_carrier ZM) (mod_carrier ZM) (identity_output ZM) :=
  mk_gipa_proof (gp_steps p) (f (gp_base p) : ZM * ZM).

(** every field of the proof matters *)
Example C53_example :
  ex_tamper (fun p => p) = Ok true /\
  ex_tamper (fun p => mk_tipa_proof (P := ZPair) (tp_gipa p) (ex_bump1 (tp_final_ck p)) (tp_final_ck_proof p)) = Ok false /\
  ex_tamper (fun p => mk_tipa_proof (P := ZPair) (tp_gipa p) (ex_bump2 (tp_final_ck p)) (tp_final_ck_proof p)) = Ok false /\
  ex_tamper (fun p => mk_tipa_proof (P := ZPair) (tp_gipa p) (tp_final_ck p) (ex_bump1 (tp_final_ck_proof p))) = Ok false /\
  ex_tamper (fun p => mk_tipa_proof (P := ZPair) (tp_gipa p) (tp_final_ck p) (ex_bump2 (tp_final_ck_proof p))) = Ok false /\
  ex_tamper (fun p => mk_tipa_proof (P := ZPair) (ex_base ex_bump1 (tp_gipa p)) (tp_final_ck p) (tp_final_ck_proof p)) = Ok false /\
  ex_tamper (fun p => mk_tipa_proof (P := ZPair) (ex_base ex_bump2 (tp_gipa p)) (tp_final_ck p) (tp_final_ck_proof p)) = Ok false.
Proof. vm_compute. repeat split; reflexivity. Qed.
Example C53_hypotheses : 1 <= threads ex_env1 /\ digest16 toy_digest.
Proof. split; [cbn; lia|]. exact toy_digest16. Qed.

(** the shift 0 and proofs without rounds *)
Example C57_example :
  ex_tamper (fun p => mk_tipa_proof (P := ZPair) (mk_gipa_proof [] (gp_base (tp_gipa p))) (tp_final_ck p) (tp_final_ck_proof p)) = Panic /\
  ex_shift_run (zq 7) (zq 0) = Panic.
Proof. vm_compute. split; reflexivity. Qed.

Definition ex_stamper (f : tssm_proof ZPair ZM (mod_carrier ZM) (identity_output ZM) ->
                           tssm_proof ZPair ZM (mod_carrier ZM) (identity_output ZM)) : res bool :=
  do s <- ex_srs 4; do v <- get_verifier_key s;
  let '(ka, _) := get_commitment_keys s in
  do mb <- structured_scalar_power (K := ZP) 4 (zq 5);
  do p <- tssm_prove (P := ZPair) (ex_L ex_env) ex_T (multiexp_ip ZM) toy_digest 9 s (ex_a, mb) (ka, tt);
  tssm_verify (P := ZPair) (ex_L ex_env1) ex_T (multiexp_ip ZM) toy_digest 9 ex_env1 v tt
    (pairing_sum ZPair ex_a ka : mod_carrier ZM,
     [big (K := ZP) (M := ZM) 4 (fun i => fpow (K := ZP) (zq 5) i *m at_ (K := ZP) ex_a i)] : identity_output ZM) (zq 5) (f p).
Definition ex_gtamper (f : gssm_proof ZM (mod_carrier ZM) (identity_output ZM) ->
                           gssm_proof ZM (mod_carrier ZM) (identity_output ZM)) : res bool :=
  do mb <- structured_scalar_power (K := ZP) 4 (zq 5);
  do p <- ex_ssm_prove (ex_a, mb) (ex_ka, tt);
  ex_ssm_verify (ex_ka, tt)
    (pairing_sum ZPair ex_a ex_ka : mod_carrier ZM,
     [big (K := ZP) (M := ZM) 4 (fun i => fpow (K := ZP) (zq 5) i *m at_ (K := ZP) ex_a i)] : identity_output ZM) (zq 5) (f p).
Definition ex_sbase (f : zp * zp -> zp * zp) (p : gssm_proof ZM (mod_carrier ZM) (identity_output ZM)) : gssm_proof ZM (mod_carrier ZM) (identity_output ZM) :=
  mk_gipa_proof (gp_steps p) (f (gp_base p) : ZM * fmod ZP).

(** the scalar of the proof is not looked at by TIPAWithSSM, and is by GIPAWithSSM *)
Example C54_example :
  ex_stamper (fun p => p) = Ok true /\
  ex_stamper (fun p => mk_tssm_proof (P := ZPair) (ts_gipa p) (ex_add1 (ts_final_ck p)) (ts_final_ck_proof p)) = Ok false /\
  ex_stamper (fun p => mk_tssm_proof (P := ZPair) (ts_gipa p) (ts_final_ck p) (ex_add1 (ts_final_ck_proof p))) = Ok false /\
  ex_stamper (fun p => mk_tssm_proof (P := ZPair) (ex_sbase ex_bump1 (ts_gipa p)) (ts_final_ck p) (ts_final_ck_proof p)) = Ok false /\
  ex_stamper (fun p => mk_tssm_proof (P := ZPair) (ex_sbase ex_bump2 (ts_gipa p)) (ts_final_ck p) (ts_final_ck_proof p)) = Ok true /\
  ex_stamper (fun p => mk_tssm_proof (P := ZPair) (mk_gipa_proof [] (gp_base (ts_gipa p))) (ts_final_ck p) (ts_final_ck_proof p)) = Panic.
Proof. vm_compute. repeat split; reflexivity. Qed.
Example C55_example :
  ex_gtamper (fun p => p) = Ok true /\ ex_gtamper (ex_sbase ex_bump1) = Ok false /\ ex_gtamper (ex_sbase ex_bump2) = Ok false.
Proof. vm_compute. repeat split; reflexivity. Qed.

(** the keys of an honest proof are the folded ones, and GIPA accepts with the full keys *)
Example C56_example :
  (do s <- ex_srs 4; do v <- get_verifier_key s;
   let '(ka, kb) := get_commitment_keys s in
   let ka' := shift_vec (K := ZP) (finv (f := ZP) (zq 7)) ka in
   let a' := shift_vec (K := ZP) (zq 7) ex_a in
   let com := (pairing_sum ZPair ex_a ka, pairing_sum ZPair kb ex_b, [pairing_sum ZPair a' ex_b])
              : com3 (mod_carrier ZM) (mod_carrier ZM) (identity_output ZM) in
   do p <- ex_tprove s (a', ex_b) (ka', kb, tt) (zq 7);
   do (_, t) <- gipa_recursive_challenges toy_digest 9 com (tp_gipa p);
   do ok <- gipa_verify (ex_L ex_env1) (ex_R ex_env1) ex_T (pairing_ip ZPair ex_env1) toy_digest 9 (ka', kb, tt) com (tp_gipa p);
   Ok (ok && zp_eqb (fst (tp_final_ck p)) (folded_key (K := ZP) (M := ZM) ka' (map (finv (f := ZP)) (rev t)))
          && zp_eqb (snd (tp_final_ck p)) (folded_key (K := ZP) (M := ZM) kb (rev t)) && (length t =? 2))) = Ok true.
Proof. vm_compute. reflexivity. Qed.

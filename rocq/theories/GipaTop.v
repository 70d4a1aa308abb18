(** GIPA: prove / verify (C09-C13, C15, C17, C19). *)
Require Import List Arith NArith Lia Bool Field.
Import ListNotations.
Require Import Verif.Outcome Verif.Algebra Verif.Rust Verif.Spec Verif.ListFacts Verif.RustFacts
  Verif.InnerProducts Verif.Commitments Verif.InnerProductFacts Verif.CommitFacts Verif.Gipa
  Verif.GipaFacts Verif.GipaComplete.

Lemma dh_verify_true {R K} {Msg Key : module K} {Out} (C : dhc R Msg Key Out) k m com :
  dh_verify C k m com = Ok true <-> dh_commit C k m = Ok com.
Proof.
  unfold dh_verify. destruct (dh_commit C k m); cbn; split; intros H; try discriminate.
  - injection H as H. apply ceqb_spec in H. now subst.
  - injection H as ->. now rewrite ceqb_refl.
Qed.

Lemma lt_pow2 k : k < 2 ^ k.
Proof. apply Nat.pow_gt_lin_r. lia. Qed.

Section Top.
  Context {R : Type} {K : field}.
  Context {MA MB MT KA KB KT : module K} {OA OB OT : carrier K}.
  Variable D : bytes -> bytes.
  Variable fuel : nat.
  Add Field KfTop : (f_theory K).

  (** ** prove_with_aux *)
  Section Aux.
    Variable LMC : dhc R MA KA OA.
    Variable RMC : dhc R MB KB OB.
    Variable IPC : dhc R MT KT OT.
    Variable ip : list MA -> list MB -> res MT.

    Lemma prove_with_aux_inv k a b ka kb kt proof aux :
      length a = 2 ^ k -> length b = 2 ^ k -> length ka = 2 ^ k -> length kb = 2 ^ k ->
      gipa_prove_with_aux LMC RMC IPC ip D fuel (a, b) (ka, kb, kt) = Ok (proof, aux) ->
      exists cs,
        chain D fuel f0 (rev (gp_steps proof)) cs /\ length (gp_steps proof) = k /\
        ga_transcript aux = rev cs /\
        fst (gp_base proof) = dot smul a (subs (rev cs) : list (fmod K)) /\
        snd (gp_base proof) = dot smul b (subs (map finv (rev cs)) : list (fmod K)) /\
        fst (ga_ck_base aux) = dot smul ka (subs (map finv (rev cs)) : list (fmod K)) /\
        snd (ga_ck_base aux) = dot smul kb (subs (rev cs) : list (fmod K)).
    Proof.
      intros Ha Hb Hka Hkb H. unfold gipa_prove_with_aux in H.
      apply rbind_ok in H as [? [_ H]].
      apply rbind_ok in H as [[[[base ckb] S'] T'] [H1 H]].
      injection H as <- <-. cbn [gp_steps gp_base ga_transcript ga_ck_base].
      apply prove_loop_inv with (k := k) in H1; auto.
      destruct H1 as [steps [cs [-> [-> [H1 [H2 [H3 [H4 [H5 H6]]]]]]]]].
      cbn [app] in *. exists cs. rewrite rev_involutive, rev_length. repeat split; auto.
    Qed.
  End Aux.

  (** ** Lawful instances; the verifier may use other implementations of the same schemes. *)
  Context {XA XB XT : module K} (dA : XA -> OA) (dB : XB -> OB) (dT : XT -> OT).
  Context (fA : KA -> MA -> XA) (fB : KB -> MB -> XB) (fT : KT -> MT -> XT) (th : MA -> MB -> MT).
  Variable LMC : dhc R MA KA OA.
  Variable RMC : dhc R MB KB OB.
  Variable IPC : dhc R MT KT OT.
  Variable ip : list MA -> list MB -> res MT.
  Context (LA : lin_commit LMC dA fA) (LB : lin_commit RMC dB fB) (LT : ip_commit IPC dT fT)
          (LI : lin_ip ip th).

  Notation live := (forall prev (c1 c2 : com3 OA OB OT), exists c,
    gipa_challenge D fuel 0 prev c1 c2 = Ok c).
  Notation com_of := (com_of dA dB dT fA fB fT th).

  Lemma prove_with_aux_live k a b ka kb kt :
    live -> length a = 2 ^ k -> length b = 2 ^ k -> length ka = 2 ^ k -> length kb = 2 ^ k ->
    exists proof aux, gipa_prove_with_aux LMC RMC IPC ip D fuel (a, b) (ka, kb, [kt]) = Ok (proof, aux).
  Proof.
    intros HL Ha Hb Hka Hkb. unfold gipa_prove_with_aux.
    rewrite Ha, is_power_of_two_pow2. cbn [rassert rbind].
    destruct (prove_loop_live LMC RMC IPC ip D fuel dA dB dT fA fB fT th LA LB LT LI k
                (2 ^ k) a b ka kb kt [] [] HL) as [[[[base ckb] S'] T'] Hr]; auto.
    { pose proof (lt_pow2 k). lia. }
    rewrite Hr. cbn [rbind]. eauto.
  Qed.

  Lemma prove_with_aux_outcome k a b ka kb kt :
    digest16 D -> length a = 2 ^ k -> length b = 2 ^ k -> length ka = 2 ^ k -> length kb = 2 ^ k ->
    gipa_prove_with_aux LMC RMC IPC ip D fuel (a, b) (ka, kb, [kt]) = Loop \/
    exists proof aux, gipa_prove_with_aux LMC RMC IPC ip D fuel (a, b) (ka, kb, [kt]) = Ok (proof, aux).
  Proof.
    intros HL Ha Hb Hka Hkb. unfold gipa_prove_with_aux.
    rewrite Ha, is_power_of_two_pow2. cbn [rassert rbind].
    destruct (prove_loop_outcome LMC RMC IPC ip D fuel dA dB dT fA fB fT th LA LB LT LI k
                (2 ^ k) a b ka kb kt [] [] HL) as [->|[[[[base ckb] S'] T'] Hr]]; auto.
    { pose proof (lt_pow2 k). lia. }
    rewrite Hr. cbn [rbind]. eauto.
  Qed.

  (** the folded honest commitments open to the final messages under the final keys *)
  Lemma prove_with_aux_folds k a b ka kb kt proof aux cs :
    length a = 2 ^ k -> length b = 2 ^ k -> length ka = 2 ^ k -> length kb = 2 ^ k ->
    gipa_prove_with_aux LMC RMC IPC ip D fuel (a, b) (ka, kb, [kt]) = Ok (proof, aux) ->
    chain D fuel f0 (rev (gp_steps proof)) cs ->
    cfold (com_of ka a kb b kt a b) (rev (gp_steps proof)) cs =
      (dA (fA (fst (ga_ck_base aux)) (fst (gp_base proof))),
       dB (fB (snd (ga_ck_base aux)) (snd (gp_base proof))),
       dT (fT kt (th (fst (gp_base proof)) (snd (gp_base proof))))).
  Proof.
    intros Ha Hb Hka Hkb H Hch. unfold gipa_prove_with_aux in H.
    apply rbind_ok in H as [? [_ H]].
    apply rbind_ok in H as [[[[base ckb] S'] T'] [H1 H]].
    injection H as <- <-. cbn [gp_steps gp_base ga_transcript ga_ck_base] in *.
    rewrite rev_involutive in *.
    eapply (prove_loop_complete LMC RMC IPC ip D fuel dA dB dT fA fB fT th LA LB LT LI k
              _ a b ka kb kt [] []); eauto.
  Qed.

  (** Verification equation: the shape that makes [gipa_verify] accept. *)
  Definition gipa_accepts (ka : list KA) (kb : list KB) (kt : KT) (com : com3 OA OB OT)
      (proof : gipa_proof MA MB OA OB OT) : Prop :=
    exists cs, chain D fuel f0 (rev (gp_steps proof)) cs /\
      length ka = 2 ^ length (gp_steps proof) /\ length kb = 2 ^ length (gp_steps proof) /\
      dA (fA (dot smul ka (subs (map finv (rev cs)) : list (fmod K))) (fst (gp_base proof)))
        = cfold1 com_a (com_a com) (rev (gp_steps proof)) cs /\
      dB (fB (dot smul kb (subs (rev cs) : list (fmod K))) (snd (gp_base proof)))
        = cfold1 com_b (com_b com) (rev (gp_steps proof)) cs /\
      dT (fT kt (th (fst (gp_base proof)) (snd (gp_base proof))))
        = cfold1 com_t (com_t com) (rev (gp_steps proof)) cs.

  Lemma verify_base_iff ka kb kt com proof :
    gipa_verify_base LMC RMC IPC ip ka kb [kt] com proof = Ok true <->
      dA (fA ka (fst (gp_base proof))) = com_a com /\
      dB (fB kb (snd (gp_base proof))) = com_b com /\
      dT (fT kt (th (fst (gp_base proof)) (snd (gp_base proof)))) = com_t com.
  Proof.
    unfold gipa_verify_base. destruct com as [[ca cb] ct]. destruct proof as [st [a b]].
    cbn [gp_base fst snd com_a com_b com_t].
    rewrite (lin_ip_single _ _ a b LI). cbn [rbind].
    rewrite !rand_then_true, !dh_verify_true.
    rewrite (lc_single _ _ _ ka a LA), (lc_single _ _ _ kb b LB), (ic_commit _ _ _ LT).
    split; [intros [[= ->] [[= ->] [= ->]]] | intros [-> [-> ->]]]; auto.
  Qed.

  Lemma verify_base_total ka kb kt com proof :
    exists b, gipa_verify_base LMC RMC IPC ip ka kb [kt] com proof = Ok b.
  Proof.
    unfold gipa_verify_base. destruct com as [[ca cb] ct]. destruct proof as [st [a b]].
    cbn [gp_base]. rewrite (lin_ip_single _ _ a b LI). cbn [rbind]. unfold dh_verify.
    rewrite (lc_single _ _ _ ka a LA), (lc_single _ _ _ kb b LB), (ic_commit _ _ _ LT).
    unfold rand_then. cbn [rbind]. destruct (ceqb _ ca); [|eauto].
    destruct (ceqb _ cb); eauto.
  Qed.

  Notation verify := (gipa_verify LMC RMC IPC ip D fuel).

  Lemma pow2_nonempty {A} (l : list A) k : length l = 2 ^ k -> l <> [].
  Proof. intros H ->. cbn in H. pose proof (pow2_pos k). lia. Qed.

  (** when a proof with matching rounds is given, verify returns a boolean that decides the equations *)
  Lemma gipa_verify_iff ka kb kt com proof :
    verify (ka, kb, kt) com proof = Ok true <-> gipa_accepts ka kb kt com proof.
  Proof.
    unfold gipa_verify. split.
    - intros H.
      destruct (negb (count_ones (length ka) =? 1) || negb (length ka =? length kb)) eqn:Eg; [discriminate|].
      apply orb_false_iff in Eg as [Eg1 Eg2]. apply negb_false_iff, Nat.eqb_eq in Eg2.
      apply rbind_ok in H as [[base T] [H1 H]]. apply rbind_ok in H as [[ka0 kb0] [H2 H]].
      apply recursive_challenges_inv in H1 as [cs [Hch [-> ->]]].
      pose proof (final_keys_inv _ _ _ _ H2) as [Hl [Hne Hnz]].
      pose proof (chain_length _ _ _ _ _ Hch) as Hcl.
      rewrite rev_length in Hl, Hcl.
      rewrite final_keys_ok in H2 by (auto; rewrite rev_length; auto). injection H2 as <- <-.
      apply verify_base_iff in H. destruct H as [E1 [E2 E3]].
      exists cs. rewrite Hcl in Hl. repeat split; auto. congruence.
    - intros [cs [Hch [Hla [Hlb [E1 [E2 E3]]]]]].
      rewrite Hla, Hlb, Nat.eqb_refl.
      replace (count_ones (2 ^ length (gp_steps proof)) =? 1) with true
        by (symmetry; apply Nat.eqb_eq, count_ones_pow2; eauto).
      cbn [negb orb].
      rewrite (recursive_challenges_chain D fuel com proof cs Hch). cbn [rbind].
      pose proof (chain_length _ _ _ _ _ Hch) as Hcl. rewrite rev_length in Hcl.
      rewrite final_keys_ok.
      + cbn [rbind]. apply verify_base_iff. auto.
      + rewrite rev_length. congruence.
      + eapply pow2_nonempty; eauto.
      + apply Forall_rev. eapply chain_nonzero; eauto.
  Qed.

  (** any Ok answer means that the number of rounds is right *)
  Lemma gipa_verify_ok_rounds ka kb kt com proof v :
    verify (ka, kb, kt) com proof = Ok v ->
    length ka = 2 ^ length (gp_steps proof) /\ length kb = 2 ^ length (gp_steps proof).
  Proof.
    unfold gipa_verify. intros H.
    destruct (negb (count_ones (length ka) =? 1) || negb (length ka =? length kb)) eqn:Eg; [discriminate|].
    apply orb_false_iff in Eg as [Eg1 Eg2]. apply negb_false_iff, Nat.eqb_eq in Eg2.
    apply rbind_ok in H as [[base T] [H1 H]]. apply rbind_ok in H as [[ka0 kb0] [H2 H]].
    apply recursive_challenges_inv in H1 as [cs [Hch [-> ->]]].
    apply final_keys_inv in H2 as [Hl [Hne Hnz]].
    apply chain_length in Hch. rewrite rev_length in Hl, Hch. rewrite Hch in Hl. split; congruence.
  Qed.

  Lemma gipa_verify_bad_keys ka kb kt com proof :
    (length ka <> length kb \/ forall k, length ka <> 2 ^ k) <->
    verify (ka, kb, kt) com proof = Err (ArgMessageLengthInvalid (length ka) (length kb))
    /\ (length ka <> length kb \/ forall k, length ka <> 2 ^ k).
  Proof.
    split; [|tauto]. intros H. split; auto. unfold gipa_verify.
    replace (negb (count_ones (length ka) =? 1) || negb (length ka =? length kb)) with true; auto.
    symmetry. apply orb_true_iff. destruct H as [H|H].
    - right. apply negb_true_iff. now apply Nat.eqb_neq.
    - left. apply negb_true_iff, Nat.eqb_neq. intros E. apply count_ones_pow2 in E as [k Hk]. now apply (H k).
  Qed.

  (** wrong number of rounds with good keys: panics (after the challenges were derived) *)
  Lemma gipa_verify_wrong_rounds k ka kb kt com proof cs :
    length ka = 2 ^ k -> length kb = 2 ^ k -> length (gp_steps proof) <> k ->
    chain D fuel f0 (rev (gp_steps proof)) cs ->
    verify (ka, kb, kt) com proof = Panic.
  Proof.
    intros Hla Hlb Hne Hch. unfold gipa_verify.
    rewrite Hla, Hlb, Nat.eqb_refl.
    replace (count_ones (2 ^ k) =? 1) with true by (symmetry; apply Nat.eqb_eq, count_ones_pow2; eauto).
    cbn [negb orb]. rewrite (recursive_challenges_chain D fuel com proof cs Hch). cbn [rbind].
    pose proof (chain_length _ _ _ _ _ Hch) as Hcl. rewrite rev_length in Hcl.
    unfold gipa_final_keys. rewrite Hla, is_power_of_two_pow2. cbn [rassert rbind].
    rewrite ck_exponents_ok by (auto; apply Forall_rev; eapply chain_nonzero; eauto).
    cbn [rbind]. rewrite subs_from_length, map_length, rev_length, Hcl. cbn [length].
    replace (1 * 2 ^ length (gp_steps proof) =? 2 ^ k) with false; [reflexivity|].
    symmetry. apply Nat.eqb_neq. rewrite Nat.mul_1_l. intros E. now apply pow2_inj in E.
  Qed.

  (** verify returns a boolean whenever rounds match and the challenges exist *)
  Lemma gipa_verify_total ka kb kt com proof cs :
    length ka = 2 ^ length (gp_steps proof) -> length kb = 2 ^ length (gp_steps proof) ->
    chain D fuel f0 (rev (gp_steps proof)) cs ->
    exists v, verify (ka, kb, kt) com proof = Ok v.
  Proof.
    intros Hla Hlb Hch. unfold gipa_verify. rewrite Hla, Hlb, Nat.eqb_refl.
    replace (count_ones (2 ^ length (gp_steps proof)) =? 1) with true
      by (symmetry; apply Nat.eqb_eq, count_ones_pow2; eauto).
    cbn [negb orb]. rewrite (recursive_challenges_chain D fuel com proof cs Hch). cbn [rbind].
    pose proof (chain_length _ _ _ _ _ Hch) as Hcl. rewrite rev_length in Hcl.
    rewrite final_keys_ok.
    - cbn [rbind]. apply verify_base_total.
    - rewrite rev_length. congruence.
    - eapply pow2_nonempty; eauto.
    - apply Forall_rev. eapply chain_nonzero; eauto.
  Qed.

  (** ** prove *)
  Lemma gipa_prove_ok_inv a b t ka kb kt com proof :
    gipa_prove LMC RMC IPC ip D fuel (a, b, t) (ka, kb, kt) com = Ok proof ->
    length a = length b /\ (exists k, length a = 2 ^ k) /\ t = dot th a b /\
    dh_commit LMC ka a = Ok (com_a com) /\ dh_commit RMC kb b = Ok (com_b com) /\
    dh_commit IPC [kt] [t] = Ok (com_t com).
  Proof.
    destruct com as [[ca cb] ct]. unfold gipa_prove. intros H.
    apply rbind_ok in H as [v [H1 H]].
    destruct (Nat.eq_dec (length a) (length b)) as [Hl|Hl].
    2:{ destruct (li_err _ _ LI a b Hl) as [e He]. congruence. }
    rewrite (li_ip _ _ LI) in H1 by auto. injection H1 as <-.
    destruct (meqb (dot th a b) t) eqn:Et; cbn [negb] in H; [|discriminate].
    apply meqb_spec in Et.
    destruct (Nat.eqb_spec (count_ones (length a)) 1) as [Ec|Ec]; cbn [negb] in H; [|discriminate].
    apply count_ones_pow2 in Ec.
    apply rbind_ok in H as [ok [H2 H]]. destruct ok; [|discriminate].
    rewrite !rand_then_true, !dh_verify_true in H2. destruct H2 as [H2 [H3 H4]].
    repeat split; auto.
  Qed.

  Lemma gipa_prove_wrong_value a b t ka kb kt com :
    length a = length b -> t <> dot th a b ->
    gipa_prove LMC RMC IPC ip D fuel (a, b, t) (ka, kb, kt) com = Err ArgInnerProductInvalid.
  Proof.
    intros Hl Ht. destruct com as [[ca cb] ct]. unfold gipa_prove. rewrite (li_ip _ _ LI) by auto.
    cbn [rbind]. destruct (meqb (dot th a b) t) eqn:Et; [|reflexivity].
    apply meqb_spec in Et. congruence.
  Qed.

  Lemma gipa_prove_bad_length a b ka kb kt com :
    length a = length b -> (forall k, length a <> 2 ^ k) ->
    gipa_prove LMC RMC IPC ip D fuel (a, b, dot th a b) (ka, kb, kt) com =
      Err (ArgMessageLengthInvalid (length a) (length b)).
  Proof.
    intros Hl Hk. destruct com as [[ca cb] ct]. unfold gipa_prove. rewrite (li_ip _ _ LI) by auto.
    cbn [rbind]. rewrite meqb_refl. cbn [negb].
    destruct (Nat.eqb_spec (count_ones (length a)) 1) as [E|E]; [|reflexivity].
    apply count_ones_pow2 in E as [k E]. now elim (Hk k).
  Qed.

  Lemma gipa_prove_wrong_com a b ka kb kt com k :
    length a = 2 ^ k -> length b = 2 ^ k -> length ka = 2 ^ k -> length kb = 2 ^ k ->
    com <> com_of ka a kb b kt a b ->
    gipa_prove LMC RMC IPC ip D fuel (a, b, dot th a b) (ka, kb, kt) com = Err ArgInnerProductInvalid.
  Proof.
    intros Ha Hb Hka Hkb Hne. destruct com as [[ca cb] ct]. unfold gipa_prove.
    rewrite (li_ip _ _ LI) by congruence.
    cbn [rbind]. rewrite meqb_refl. cbn [negb]. rewrite Ha.
    replace (count_ones (2 ^ k) =? 1) with true by (symmetry; apply Nat.eqb_eq, count_ones_pow2; eauto).
    cbn [negb]. unfold dh_verify, rand_then.
    rewrite (lc_commit _ _ _ LA), (lc_commit _ _ _ LB), (ic_commit _ _ _ LT) by congruence. cbn [rbind].
    destruct (ceqb (dA (dot fA ka a)) ca) eqn:E1; [|reflexivity]. apply ceqb_spec in E1.
    destruct (ceqb (dB (dot fB kb b)) cb) eqn:E2; [|reflexivity]. apply ceqb_spec in E2.
    destruct (ceqb (dT (fT kt (dot th a b))) ct) eqn:E3; [|reflexivity]. apply ceqb_spec in E3.
    exfalso. apply Hne. unfold GipaComplete.com_of. congruence.
  Qed.

  Lemma gipa_prove_eq k a b ka kb kt :
    length a = 2 ^ k -> length b = 2 ^ k -> length ka = 2 ^ k -> length kb = 2 ^ k ->
    gipa_prove LMC RMC IPC ip D fuel (a, b, dot th a b) (ka, kb, kt) (com_of ka a kb b kt a b) =
      (do (proof, _) <- gipa_prove_with_aux LMC RMC IPC ip D fuel (a, b) (ka, kb, [kt]); Ok proof).
  Proof.
    intros Ha Hb Hka Hkb. unfold gipa_prove, GipaComplete.com_of.
    rewrite (li_ip _ _ LI) by congruence. cbn [rbind]. rewrite meqb_refl. cbn [negb].
    rewrite Ha. replace (count_ones (2 ^ k) =? 1) with true
      by (symmetry; apply Nat.eqb_eq, count_ones_pow2; eauto). cbn [negb].
    match goal with |- rbind ?x _ = _ => assert (x = Ok true) as -> end.
    { rewrite !rand_then_true, !dh_verify_true.
      rewrite (lc_commit _ _ _ LA), (lc_commit _ _ _ LB), (ic_commit _ _ _ LT) by congruence. auto. }
    reflexivity.
  Qed.
End Top.

(** ** Completeness with possibly different implementations on the two sides *)
Section Complete.
  Context {R : Type} {K : field}.
  Context {MA MB MT KA KB KT : module K} {OA OB OT : carrier K}.
  Variable D : bytes -> bytes.
  Variable fuel : nat.
  Context {XA XB XT : module K} (dA : XA -> OA) (dB : XB -> OB) (dT : XT -> OT).
  Context (fA : KA -> MA -> XA) (fB : KB -> MB -> XB) (fT : KT -> MT -> XT) (th : MA -> MB -> MT).
  Variables LMC LMC' : dhc R MA KA OA.
  Variables RMC RMC' : dhc R MB KB OB.
  Variables IPC IPC' : dhc R MT KT OT.
  Variables ip ip' : list MA -> list MB -> res MT.
  Context (LA : lin_commit LMC dA fA) (LB : lin_commit RMC dB fB) (LT : ip_commit IPC dT fT)
          (LI : lin_ip ip th).
  Context (LA' : lin_commit LMC' dA fA) (LB' : lin_commit RMC' dB fB) (LT' : ip_commit IPC' dT fT)
          (LI' : lin_ip ip' th).

  Lemma gipa_complete_aux k a b ka kb kt proof aux :
    length a = 2 ^ k -> length b = 2 ^ k -> length ka = 2 ^ k -> length kb = 2 ^ k ->
    gipa_prove_with_aux LMC RMC IPC ip D fuel (a, b) (ka, kb, [kt]) = Ok (proof, aux) ->
    gipa_verify LMC' RMC' IPC' ip' D fuel (ka, kb, kt)
      (com_of dA dB dT fA fB fT th ka a kb b kt a b) proof = Ok true.
  Proof.
    intros Ha Hb Hka Hkb H.
    apply (gipa_verify_iff D fuel dA dB dT fA fB fT th LMC' RMC' IPC' ip' LA' LB' LT' LI').
    pose proof (prove_with_aux_inv D fuel LMC RMC IPC ip k a b ka kb [kt] proof aux Ha Hb Hka Hkb H)
      as [cs [Hch [Hk [Ht [E1 [E2 [E3 E4]]]]]]].
    pose proof (prove_with_aux_folds D fuel dA dB dT fA fB fT th LMC RMC IPC ip LA LB LT LI
                  k a b ka kb kt proof aux cs Ha Hb Hka Hkb H Hch) as Hf.
    exists cs. rewrite Hk. repeat split; auto.
    - rewrite <- E3. apply (f_equal com_a) in Hf. symmetry. exact Hf.
    - rewrite <- E4. apply (f_equal com_b) in Hf. symmetry. exact Hf.
    - apply (f_equal com_t) in Hf. symmetry. exact Hf.
  Qed.

  Lemma gipa_complete k a b ka kb kt proof :
    length a = 2 ^ k -> length b = 2 ^ k -> length ka = 2 ^ k -> length kb = 2 ^ k ->
    gipa_prove LMC RMC IPC ip D fuel (a, b, dot th a b) (ka, kb, kt)
      (com_of dA dB dT fA fB fT th ka a kb b kt a b) = Ok proof ->
    gipa_verify LMC' RMC' IPC' ip' D fuel (ka, kb, kt)
      (com_of dA dB dT fA fB fT th ka a kb b kt a b) proof = Ok true.
  Proof.
    intros Ha Hb Hka Hkb H.
    rewrite (gipa_prove_eq D fuel dA dB dT fA fB fT th LMC RMC IPC ip LA LB LT LI k) in H by auto.
    apply rbind_ok in H as [[pr aux] [H1 [= ->]]].
    eapply gipa_complete_aux; eauto.
  Qed.

  Lemma gipa_complete_outcome k a b ka kb kt :
    digest16 D ->
    length a = 2 ^ k -> length b = 2 ^ k -> length ka = 2 ^ k -> length kb = 2 ^ k ->
    let com := com_of dA dB dT fA fB fT th ka a kb b kt a b in
    gipa_prove LMC RMC IPC ip D fuel (a, b, dot th a b) (ka, kb, kt) com = Loop \/
    exists proof,
      gipa_prove LMC RMC IPC ip D fuel (a, b, dot th a b) (ka, kb, kt) com = Ok proof /\
      gipa_verify LMC' RMC' IPC' ip' D fuel (ka, kb, kt) com proof = Ok true.
  Proof.
    intros HD Ha Hb Hka Hkb com.
    destruct (prove_with_aux_outcome D fuel dA dB dT fA fB fT th LMC RMC IPC ip LA LB LT LI
                k a b ka kb kt HD Ha Hb Hka Hkb) as [H|[proof [aux H]]].
    - left. unfold com. rewrite (gipa_prove_eq D fuel dA dB dT fA fB fT th LMC RMC IPC ip LA LB LT LI k) by auto.
      now rewrite H.
    - right. exists proof. split.
      + unfold com. rewrite (gipa_prove_eq D fuel dA dB dT fA fB fT th LMC RMC IPC ip LA LB LT LI k) by auto.
        now rewrite H.
      + eapply gipa_complete_aux; eauto.
  Qed.

  Lemma gipa_complete_live k a b ka kb kt :
    (forall prev (c1 c2 : com3 OA OB OT), exists c, gipa_challenge D fuel 0 prev c1 c2 = Ok c) ->
    length a = 2 ^ k -> length b = 2 ^ k -> length ka = 2 ^ k -> length kb = 2 ^ k ->
    let com := com_of dA dB dT fA fB fT th ka a kb b kt a b in
    exists proof,
      gipa_prove LMC RMC IPC ip D fuel (a, b, dot th a b) (ka, kb, kt) com = Ok proof /\
      gipa_verify LMC' RMC' IPC' ip' D fuel (ka, kb, kt) com proof = Ok true.
  Proof.
    intros HD Ha Hb Hka Hkb com.
    destruct (prove_with_aux_live D fuel dA dB dT fA fB fT th LMC RMC IPC ip LA LB LT LI
                k a b ka kb kt HD Ha Hb Hka Hkb) as [proof [aux H]].
    exists proof. split.
    - unfold com. rewrite (gipa_prove_eq D fuel dA dB dT fA fB fT th LMC RMC IPC ip LA LB LT LI k) by auto.
      now rewrite H.
    - eapply gipa_complete_aux; eauto.
  Qed.
End Complete.

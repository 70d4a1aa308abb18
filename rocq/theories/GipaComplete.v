(** GIPA: the prover's loop and completeness (C09, C13-C15). *)
Require Import List Arith NArith Lia Bool Field.
Import ListNotations.
Require Import Verif.Outcome Verif.Algebra Verif.Rust Verif.Spec Verif.ListFacts Verif.RustFacts
  Verif.InnerProducts Verif.Commitments Verif.InnerProductFacts Verif.CommitFacts Verif.Gipa Verif.GipaFacts.

Lemma halves {A} k (l : list A) : length l = 2 ^ S k ->
  exists l1 l2, l = l1 ++ l2 /\ length l1 = 2 ^ k /\ length l2 = 2 ^ k.
Proof.
  intros H. cbn [Nat.pow] in H. destruct (split_list (2 ^ k) l) as [l1 [l2 [H1 [H2 [H3 _]]]]]; [lia|].
  exists l1, l2. repeat split; auto. lia.
Qed.

Lemma list_1 {A} (l : list A) : length l = 1 -> exists x, l = [x].
Proof. destruct l as [|x [|]]; cbn; intros; try discriminate. eauto. Qed.

Section Prover.
  Context {R : Type} {K : field}.
  Context {MA MB MT KA KB KT : module K} {OA OB OT : carrier K}.
  Variable LMC : dhc R MA KA OA.
  Variable RMC : dhc R MB KB OB.
  Variable IPC : dhc R MT KT OT.
  Variable ip : list MA -> list MB -> res MT.
  Variable D : bytes -> bytes.
  Variable fuel : nat.
  Add Field KfPr : (f_theory K).
  Notation loop := (gipa_prove_loop LMC RMC IPC ip D fuel).
  Notation commit3 := (gipa_commit3 LMC RMC IPC ip).
  Notation step := (com3 OA OB OT * com3 OA OB OT)%type.

  (** one round of the loop on vectors split in halves *)
  Lemma prove_loop_step n k (a1 a2 : list MA) (b1 b2 : list MB) (ka1 ka2 : list KA) (kb1 kb2 : list KB)
      kt S T :
    length a1 = 2 ^ k -> length a2 = 2 ^ k -> length b1 = 2 ^ k -> length b2 = 2 ^ k ->
    length ka1 = 2 ^ k -> length ka2 = 2 ^ k -> length kb1 = 2 ^ k -> length kb2 = 2 ^ k ->
    loop (Datatypes.S n) (a1 ++ a2) (b1 ++ b2) (ka1 ++ ka2) (kb1 ++ kb2) kt S T =
      (do com_1 <- commit3 ka1 a2 kb2 b1 kt;
       do com_2 <- commit3 ka2 a1 kb1 b2 kt;
       do (c, c_inv) <- gipa_challenge D fuel 0 (gipa_prev T) com_1 com_2;
       loop n (vfold c a1 a2) (vfold c_inv b1 b2) (vfold c_inv ka1 ka2) (vfold c kb1 kb2) kt
         (S ++ [(com_1, com_2)]) (T ++ [c])).
  Proof.
    intros. pose proof (pow2_pos k).
    assert (Hl : length (a1 ++ a2) = 2 ^ Datatypes.S k) by (rewrite app_length; cbn [Nat.pow]; lia).
    cbn [gipa_prove_loop]. rewrite Hl, pow2_half.
    destruct (Nat.eqb_spec (2 ^ Datatypes.S k) 1) as [E|_]; [cbn [Nat.pow] in E; lia|].
    rewrite !slice_from_app, !slice_to_app by auto. cbn [rbind].
    destruct (commit3 ka1 a2 kb2 b1 kt); cbn [rbind]; auto.
    destruct (commit3 ka2 a1 kb1 b2 kt); cbn [rbind]; auto.
    destruct (gipa_challenge D fuel 0 (gipa_prev T) a a0) as [[c ci]| | |]; cbn [rbind]; auto.
    now rewrite !rescale_vfold.
  Qed.

  Lemma prove_loop_base n (a : MA) (b : MB) (ka : KA) (kb : KB) kt S T :
    loop n [a] [b] [ka] [kb] kt S T = Ok ((a, b), (ka, kb), S, T).
  Proof. destruct n; reflexivity. Qed.

  (** Shape of the result and closed forms of the folded messages and keys. *)
  Definition loop_result (k : nat) (a : list MA) (b : list MB) (ka : list KA) (kb : list KB)
      (S S' : list step) (T T' : list K) (base : MA * MB) (ckb : KA * KB) : Prop :=
    exists steps cs, S' = S ++ steps /\ T' = T ++ cs /\ length steps = k /\
      chain D fuel (gipa_prev T) steps cs /\
      fst base = dot smul a (subs (rev cs) : list (fmod K)) /\
      snd base = dot smul b (subs (map finv (rev cs)) : list (fmod K)) /\
      fst ckb = dot smul ka (subs (map finv (rev cs)) : list (fmod K)) /\
      snd ckb = dot smul kb (subs (rev cs) : list (fmod K)).

  Lemma dot_subs_nil {M : module K} (a : M) : dot smul [a] (subs [] : list (fmod K)) = a.
  Proof. exact (eq_trans (dot_single smul a (f1 : fmod K)) (mscale_1 K M a)). Qed.

  Lemma dot_fold_rev {M : module K} (l1 l2 : list M) c cs :
    length l1 = 2 ^ length cs -> length l2 = 2 ^ length cs ->
    dot smul (vfold c l1 l2) (subs (rev cs) : list (fmod K)) =
    dot smul (l1 ++ l2) (subs (rev (c :: cs)) : list (fmod K)).
  Proof. intros. cbn [rev]. rewrite dot_subs_fold; rewrite ?rev_length; auto. Qed.

  Lemma dot_fold_rev_inv {M : module K} (l1 l2 : list M) c cs :
    length l1 = 2 ^ length cs -> length l2 = 2 ^ length cs ->
    dot smul (vfold (finv c) l1 l2) (subs (map finv (rev cs)) : list (fmod K)) =
    dot smul (l1 ++ l2) (subs (map finv (rev (c :: cs))) : list (fmod K)).
  Proof.
    intros. cbn [rev]. rewrite map_app. cbn [map].
    rewrite dot_subs_fold; rewrite ?map_length, ?rev_length; auto.
  Qed.

  Lemma prove_loop_inv k : forall n a b ka kb kt S T base ckb S' T',
    length a = 2 ^ k -> length b = 2 ^ k -> length ka = 2 ^ k -> length kb = 2 ^ k ->
    loop n a b ka kb kt S T = Ok (base, ckb, S', T') ->
    loop_result k a b ka kb S S' T T' base ckb.
  Proof.
    induction k as [|k IH]; intros n a b ka kb kt S T base ckb S' T' Ha Hb Hka Hkb H.
    - cbn [Nat.pow] in *.
      apply list_1 in Ha as [x ->]. apply list_1 in Hb as [y ->].
      apply list_1 in Hka as [z ->]. apply list_1 in Hkb as [w ->].
      rewrite prove_loop_base in H. injection H as <- <- <- <-.
      exists [], []. rewrite !app_nil_r. cbn [rev map fst snd]. rewrite !dot_subs_nil.
      repeat split; auto. constructor.
    - apply halves in Ha as [a1 [a2 [-> [? ?]]]]. apply halves in Hb as [b1 [b2 [-> [? ?]]]].
      apply halves in Hka as [ka1 [ka2 [-> [? ?]]]]. apply halves in Hkb as [kb1 [kb2 [-> [? ?]]]].
      destruct n as [|n].
      { cbn [gipa_prove_loop] in H. rewrite app_length in H.
        destruct (Nat.eqb_spec (length a1 + length a2) 1); [|discriminate].
        pose proof (pow2_pos k). lia. }
      rewrite (prove_loop_step n k) in H by auto.
      apply rbind_ok in H as [com_1 [Hcom1 H]]. apply rbind_ok in H as [com_2 [Hcom2 H]].
      apply rbind_ok in H as [[c ci] [Hchal H]].
      apply IH in H; try (rewrite vfold_length; lia).
      destruct H as [steps [cs [-> [-> [Hlen [Hch [E1 [E2 [E3 E4]]]]]]]]].
      rewrite gipa_prev_snoc in Hch.
      pose proof (chain_length _ _ _ _ _ Hch) as Hcl. rewrite Hlen in Hcl.
      assert (Hci : ci = finv c) by (apply gipa_challenge_ok_inv in Hchal; tauto). subst ci.
      exists ((com_1, com_2) :: steps), (c :: cs).
      rewrite <- !app_assoc. cbn [app length].
      rewrite dot_fold_rev in E1 by (rewrite Hcl; auto).
      rewrite dot_fold_rev_inv in E2 by (rewrite Hcl; auto).
      rewrite dot_fold_rev_inv in E3 by (rewrite Hcl; auto).
      rewrite dot_fold_rev in E4 by (rewrite Hcl; auto).
      repeat split; auto.
      econstructor; [exact Hchal | exact Hch].
  Qed.

  (** What the commitments satisfy. *)
  Section Laws.
    Context {XA XB XT : module K} (dA : XA -> OA) (dB : XB -> OB) (dT : XT -> OT).
    Context (fA : KA -> MA -> XA) (fB : KB -> MB -> XB) (fT : KT -> MT -> XT) (th : MA -> MB -> MT).
    Context (LA : lin_commit LMC dA fA) (LB : lin_commit RMC dB fB) (LT : ip_commit IPC dT fT)
            (LI : lin_ip ip th).

    Definition com_of (ka : list KA) (a : list MA) (kb : list KB) (b : list MB) (kt : KT) (a' : list MA)
        (b' : list MB) : com3 OA OB OT :=
      (dA (dot fA ka a), dB (dot fB kb b), dT (fT kt (dot th a' b'))).

    Lemma commit3_ok ka a kb b kt :
      length ka = length a -> length kb = length b -> length a = length b ->
      commit3 ka a kb b [kt] = Ok (com_of ka a kb b kt a b).
    Proof.
      intros H1 H2 H3. unfold gipa_commit3.
      rewrite (lc_commit _ _ _ LA), (lc_commit _ _ _ LB), (li_ip _ _ LI) by auto. cbn [rbind].
      rewrite (ic_commit _ _ _ LT). reflexivity.
    Qed.

    (** one folding step on honest commitments *)
    Lemma com_fold_step c ka1 ka2 a1 a2 kb1 kb2 b1 b2 kt n :
      c <> f0 ->
      length a1 = n -> length a2 = n -> length b1 = n -> length b2 = n ->
      length ka1 = n -> length ka2 = n -> length kb1 = n -> length kb2 = n ->
      forall steps cs,
      cfold (com_of (ka1 ++ ka2) (a1 ++ a2) (kb1 ++ kb2) (b1 ++ b2) kt (a1 ++ a2) (b1 ++ b2))
        ((com_of ka1 a2 kb2 b1 kt a2 b1, com_of ka2 a1 kb1 b2 kt a1 b2) :: steps) (c :: cs)
      = cfold (com_of (vfold (finv c) ka1 ka2) (vfold c a1 a2) (vfold c kb1 kb2) (vfold (finv c) b1 b2) kt
                 (vfold c a1 a2) (vfold (finv c) b1 b2)) steps cs.
    Proof.
      intros Hc. intros. unfold cfold, com_of, com_a, com_b, com_t. cbn [fst snd cfold1].
      assert (X1 : finv c *f c = f1) by now apply finv_l.
      assert (X2 : c *f finv c = f1) by now apply finv_r.
      f_equal; [f_equal|].
      - f_equal. rewrite <- !(lc_scale _ _ _ LA), <- !(lc_add _ _ _ LA). f_equal.
        rewrite (dot_fold fA (lc_bil _ _ _ LA)) by (auto; lia). module_norm; ring.
      - f_equal. rewrite <- !(lc_scale _ _ _ LB), <- !(lc_add _ _ _ LB). f_equal.
        rewrite (dot_fold fB (lc_bil _ _ _ LB)) by (auto; lia). module_norm; ring.
      - f_equal. rewrite <- !(ic_dscale _ _ _ LT), <- !(ic_dadd _ _ _ LT). f_equal.
        rewrite <- !(ic_scale _ _ _ LT), <- !(ic_add _ _ _ LT). f_equal.
        rewrite (dot_fold th (li_bil _ _ LI)) by (auto; lia). module_norm; ring.
    Qed.

    Lemma prove_loop_complete k : forall n a b ka kb kt S T base ckb steps cs T',
      length a = 2 ^ k -> length b = 2 ^ k -> length ka = 2 ^ k -> length kb = 2 ^ k ->
      loop n a b ka kb [kt] S T = Ok (base, ckb, S ++ steps, T') ->
      chain D fuel (gipa_prev T) steps cs ->
      cfold (com_of ka a kb b kt a b) steps cs =
        (dA (fA (fst ckb) (fst base)), dB (fB (snd ckb) (snd base)),
         dT (fT kt (th (fst base) (snd base)))).
    Proof.
      induction k as [|k IH]; intros n a b ka kb kt S T base ckb steps cs T' Ha Hb Hka Hkb H Hch.
      - cbn [Nat.pow] in *.
        apply list_1 in Ha as [x ->]. apply list_1 in Hb as [y ->].
        apply list_1 in Hka as [z ->]. apply list_1 in Hkb as [w ->].
        rewrite prove_loop_base in H. injection H as <- <- HS <-.
        assert (steps = []) as ->.
        { rewrite <- (app_nil_r S) in HS at 1. now apply app_inv_head in HS. }
        inversion Hch; subst. unfold cfold, com_of, com_a, com_b, com_t. cbn [fst snd cfold1].
        now rewrite !dot_single.
      - apply halves in Ha as [a1 [a2 [-> [? ?]]]]. apply halves in Hb as [b1 [b2 [-> [? ?]]]].
        apply halves in Hka as [ka1 [ka2 [-> [? ?]]]]. apply halves in Hkb as [kb1 [kb2 [-> [? ?]]]].
        destruct n as [|n].
        { cbn [gipa_prove_loop] in H. rewrite app_length in H.
          destruct (Nat.eqb_spec (length a1 + length a2) 1); [|discriminate].
          pose proof (pow2_pos k). lia. }
        rewrite (prove_loop_step n k) in H by auto.
        rewrite !commit3_ok in H by lia. cbn [rbind] in H.
        apply rbind_ok in H as [[c ci] [Hchal H]].
        assert (Hci : c <> f0 /\ ci = finv c) by (apply gipa_challenge_ok_inv in Hchal; tauto).
        destruct Hci as [Hc ->].
        pose proof H as H'.
        apply prove_loop_inv with (k := k) in H'; try (rewrite vfold_length; lia).
        destruct H' as [steps' [cs' [HS [HT [_ [Hch' _]]]]]].
        rewrite gipa_prev_snoc in Hch'.
        rewrite <- app_assoc in HS. apply app_inv_head in HS. subst steps. cbn [app] in *.
        inversion Hch as [|? ? ? c'' ci'' cs'' Hc1 Hc2]; subst.
        cbn [fst snd] in Hc1. assert (c'' = c) by congruence. subst c''.
        rewrite (com_fold_step c ka1 ka2 a1 a2 kb1 kb2 b1 b2 kt (2 ^ k)) by auto.
        eapply (IH n _ _ _ _ kt (S ++ [_]) (T ++ [c])); try (rewrite vfold_length; lia).
        + rewrite <- app_assoc. exact H.
        + now rewrite gipa_prev_snoc.
    Qed.

    (** the loop ends when every challenge query does *)
    Lemma prove_loop_live k : forall n a b ka kb kt S T,
      (forall prev c1 c2, exists c, gipa_challenge (OA := OA) (OB := OB) (OT := OT) D fuel 0 prev c1 c2 = Ok c) ->
      length a = 2 ^ k -> length b = 2 ^ k -> length ka = 2 ^ k -> length kb = 2 ^ k -> k <= n ->
      exists r, loop n a b ka kb [kt] S T = Ok r.
    Proof.
      induction k as [|k IH]; intros n a b ka kb kt S T Hlive Ha Hb Hka Hkb Hn.
      - cbn [Nat.pow] in *.
        apply list_1 in Ha as [x ->]. apply list_1 in Hb as [y ->].
        apply list_1 in Hka as [z ->]. apply list_1 in Hkb as [w ->].
        rewrite prove_loop_base. eauto.
      - apply halves in Ha as [a1 [a2 [-> [? ?]]]]. apply halves in Hb as [b1 [b2 [-> [? ?]]]].
        apply halves in Hka as [ka1 [ka2 [-> [? ?]]]]. apply halves in Hkb as [kb1 [kb2 [-> [? ?]]]].
        destruct n as [|n]; [lia|].
        rewrite (prove_loop_step n k) by auto.
        rewrite !commit3_ok by lia. cbn [rbind].
        match goal with |- context [gipa_challenge D fuel 0 ?p ?x ?y] =>
          destruct (Hlive p x y) as [[c ci] Hc] end.
        rewrite Hc. cbn [rbind]. apply IH; auto; try (rewrite vfold_length; lia). lia.
    Qed.

    (** without the hypothesis: the only other outcomes are those of the challenge loop *)
    Lemma prove_loop_outcome k : forall n a b ka kb kt S T,
      digest16 D ->
      length a = 2 ^ k -> length b = 2 ^ k -> length ka = 2 ^ k -> length kb = 2 ^ k -> k <= n ->
      loop n a b ka kb [kt] S T = Loop \/ exists r, loop n a b ka kb [kt] S T = Ok r.
    Proof.
      induction k as [|k IH]; intros n a b ka kb kt S T HD Ha Hb Hka Hkb Hn.
      - cbn [Nat.pow] in *.
        apply list_1 in Ha as [x ->]. apply list_1 in Hb as [y ->].
        apply list_1 in Hka as [z ->]. apply list_1 in Hkb as [w ->].
        rewrite prove_loop_base. eauto.
      - apply halves in Ha as [a1 [a2 [-> [? ?]]]]. apply halves in Hb as [b1 [b2 [-> [? ?]]]].
        apply halves in Hka as [ka1 [ka2 [-> [? ?]]]]. apply halves in Hkb as [kb1 [kb2 [-> [? ?]]]].
        destruct n as [|n]; [lia|].
        rewrite (prove_loop_step n k) by auto.
        rewrite !commit3_ok by lia. cbn [rbind].
        match goal with |- context [gipa_challenge D fuel 0 ?p ?x ?y] =>
          destruct (gipa_challenge_spec_from D p x y HD fuel 0) as [[m [v [_ [_ [_ ->]]]]]|[_ ->]] end;
          cbn [rbind].
        + apply IH; auto; try (rewrite vfold_length; lia). lia.
        + auto.
    Qed.
  End Laws.
End Prover.

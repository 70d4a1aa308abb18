(** GIPA: the challenges do not bind the statement (C17); uniqueness of the accepted value (C19). *)
Require Import List Arith NArith Lia Bool Field.
Import ListNotations.
Require Import Verif.Outcome Verif.Algebra Verif.Rust Verif.Spec Verif.ListFacts Verif.RustFacts
  Verif.InnerProducts Verif.Commitments Verif.InnerProductFacts Verif.CommitFacts Verif.Gipa
  Verif.GipaFacts Verif.GipaComplete Verif.GipaTop.

Section Attack.
  Context {R : Type} {K : field}.
  Context {MA MB MT KA KB KT : module K} {OA OB OT : carrier K}.
  Variable D : bytes -> bytes.
  Variable fuel : nat.
  Add Field KfAtt : (f_theory K).
  Context {XA XB XT : module K} (dA : XA -> OA) (dB : XB -> OB) (dT : XT -> OT).
  Context (fA : KA -> MA -> XA) (fB : KB -> MB -> XB) (fT : KT -> MT -> XT) (th : MA -> MB -> MT).
  Variable LMC : dhc R MA KA OA.
  Variable RMC : dhc R MB KB OB.
  Variable IPC : dhc R MT KT OT.
  Variable ip : list MA -> list MB -> res MT.
  Context (LA : lin_commit LMC dA fA) (LB : lin_commit RMC dB fB) (LT : ip_commit IPC dT fT)
          (LI : lin_ip ip th).

  Notation live := (forall prev (c1 c2 : com3 OA OB OT), exists c,
    gipa_challenge D fuel 0 prev c1 c2 = Ok c).

  (** A proof whose first round is tweaked by [delta] in the inner-product component is accepted for
      the inner-product commitment shifted by [- c * delta]. *)
  Lemma gipa_forge k a b ka kb kt (delta : XT) :
    live ->
    length a = 2 ^ S k -> length b = 2 ^ S k -> length ka = 2 ^ S k -> length kb = 2 ^ S k ->
    exists (proof : gipa_proof MA MB OA OB OT) c cs,
      chain D fuel f0 (rev (gp_steps proof)) (c :: cs) /\
      length (gp_steps proof) = S k /\
      fst (gp_base proof) = dot smul a (subs (rev (c :: cs)) : list (fmod K)) /\
      snd (gp_base proof) = dot smul b (subs (map finv (rev (c :: cs))) : list (fmod K)) /\
      cfold (dA (dot fA ka a), dB (dot fB kb b), dT (fT kt (dot th a b) -m c *m delta))
            (rev (gp_steps proof)) (c :: cs) =
        (dA (fA (dot smul ka (subs (map finv (rev (c :: cs))) : list (fmod K))) (fst (gp_base proof))),
         dB (fB (dot smul kb (subs (rev (c :: cs)) : list (fmod K))) (snd (gp_base proof))),
         dT (fT kt (th (fst (gp_base proof)) (snd (gp_base proof))))).
  Proof.
    intros HL Ha Hb Hka Hkb.
    apply halves in Ha as [a1 [a2 [-> [? ?]]]]. apply halves in Hb as [b1 [b2 [-> [? ?]]]].
    apply halves in Hka as [ka1 [ka2 [-> [? ?]]]]. apply halves in Hkb as [kb1 [kb2 [-> [? ?]]]].
    set (com_1 := (dA (dot fA ka1 a2), dB (dot fB kb2 b1), dT (fT kt (dot th a2 b1) +m delta))
                  : com3 OA OB OT).
    set (com_2 := com_of dA dB dT fA fB fT th ka2 a1 kb1 b2 kt a1 b2).
    destruct (HL f0 com_1 com_2) as [[c ci] Hc].
    pose proof (gipa_challenge_ok_inv D fuel 0 f0 com_1 com_2 c ci Hc) as [_ [_ [Hcn Hci]]].
    subst ci.
    destruct (prove_loop_live LMC RMC IPC ip D fuel dA dB dT fA fB fT th LA LB LT LI k k
                (vfold c a1 a2) (vfold (finv c) b1 b2) (vfold (finv c) ka1 ka2) (vfold c kb1 kb2)
                kt [(com_1, com_2)] [c] HL) as [[[[base ckb] S'] T'] Hr];
      try (rewrite vfold_length; lia); auto.
    pose proof Hr as Hr'.
    apply prove_loop_inv with (k := k) in Hr'; try (rewrite vfold_length; lia).
    destruct Hr' as [steps [cs [-> [-> [Hlen [Hch [E1 [E2 [E3 E4]]]]]]]]].
    pose proof (prove_loop_complete LMC RMC IPC ip D fuel dA dB dT fA fB fT th LA LB LT LI k k
                (vfold c a1 a2) (vfold (finv c) b1 b2) (vfold (finv c) ka1 ka2) (vfold c kb1 kb2)
                kt [(com_1, com_2)] [c] base ckb steps cs ([c] ++ cs)) as Hf.
    do 4 (specialize (Hf ltac:(rewrite vfold_length; lia))). specialize (Hf Hr Hch).
    change (gipa_prev [c]) with c in Hch.
    pose proof (chain_length _ _ _ _ _ Hch) as Hcl. rewrite Hlen in Hcl.
    rewrite dot_fold_rev in E1 by (rewrite Hcl; auto).
    rewrite dot_fold_rev_inv in E2 by (rewrite Hcl; auto).
    rewrite dot_fold_rev_inv in E3 by (rewrite Hcl; auto).
    rewrite dot_fold_rev in E4 by (rewrite Hcl; auto).
    exists (mk_gipa_proof (rev ((com_1, com_2) :: steps)) base), c, cs.
    cbn [gp_steps gp_base]. rewrite rev_involutive, rev_length. cbn [length].
    split; [econstructor; [exact Hc | exact Hch]|].
    split; [lia|]. split; [exact E1|]. split; [exact E2|].
    rewrite <- E3, <- E4, <- Hf.
    rewrite <- (com_fold_step LMC RMC IPC ip dA dB dT fA fB fT th LA LB LT LI c ka1 ka2 a1 a2 kb1 kb2
                  b1 b2 kt (2 ^ k)) by auto.
    unfold cfold, com_of, com_1, com_2, com_of, com_a, com_b, com_t. cbn [fst snd cfold1].
    f_equal. f_equal.
    rewrite <- !(ic_dscale _ _ _ LT), <- !(ic_dadd _ _ _ LT). f_equal. module_norm; ring.
  Qed.

  Lemma gipa_forge_accepted k a b ka kb kt (delta : XT) :
    live -> delta <> m0 ->
    length a = 2 ^ S k -> length b = 2 ^ S k -> length ka = 2 ^ S k -> length kb = 2 ^ S k ->
    exists (proof : gipa_proof MA MB OA OB OT) x,
      x <> fT kt (dot th a b) /\
      gipa_verify LMC RMC IPC ip D fuel (ka, kb, kt) (dA (dot fA ka a), dB (dot fB kb b), dT x) proof
        = Ok true.
  Proof.
    intros HL Hd Ha Hb Hka Hkb.
    destruct (gipa_forge k a b ka kb kt delta HL Ha Hb Hka Hkb) as [proof [c [cs [Hch [Hk [E1 [E2 Hf]]]]]]].
    exists proof, (fT kt (dot th a b) -m c *m delta). split.
    - intros E.
      assert (c *m delta = m0).
      { apply (madd_cancel_l K XT (fT kt (dot th a b) -m c *m delta)).
        transitivity (fT kt (dot th a b)); [module_norm; ring|]. rewrite E at 1. symmetry. apply madd_0_r. }
      apply mscale_integral in H as [->|H]; [|contradiction].
      apply chain_nonzero in Hch. inversion Hch. congruence.
    - apply (gipa_verify_iff D fuel dA dB dT fA fB fT th LMC RMC IPC ip LA LB LT LI).
      exists (c :: cs). rewrite Hk. repeat split; auto.
      + apply (f_equal com_a) in Hf. symmetry. exact Hf.
      + apply (f_equal com_b) in Hf. symmetry. exact Hf.
      + apply (f_equal com_t) in Hf. symmetry. exact Hf.
  Qed.
End Attack.

(** ** Uniqueness of the accepted inner-product commitment *)
Section Unique.
  Context {K : field} {OA OB OT : carrier K}.
  Add Field KfU : (f_theory K).

  (** folding in a group is a sum *)
  Lemma cfold1_sum {O : module K} (pr : com3 OA OB OT -> mod_carrier O) steps : forall com cs,
    length cs = length steps ->
    cfold1 (O := mod_carrier O) pr com steps cs =
    (com : O) +m (msum (M := O) (zipw (fun s c => c *m (pr (fst s) : O) +m finv c *m (pr (snd s) : O)) steps cs)).
  Proof.
    induction steps as [|s steps IH]; intros com cs H; destruct cs; try discriminate; cbn [cfold1 zipw].
    - rewrite msum_nil. symmetry. apply madd_0_r.
    - rewrite IH by (cbn in H; lia). rewrite msum_cons. cbn [cadd cscale mod_carrier].
      match goal with |- context [msum ?l] => generalize (msum l) end. intros z.
      generalize (pr (fst s)) (pr (snd s)). intros x y. cbn in x, y.
      cbn in com. match goal with |- @eq _ ?a ?b => change (@eq (mcar O) a b) end. module_norm; ring.
  Qed.

  Lemma cfold1_inj {O : module K} (pr : com3 OA OB OT -> mod_carrier O) steps com com' cs :
    length cs = length steps ->
    cfold1 (O := mod_carrier O) pr com steps cs = cfold1 (O := mod_carrier O) pr com' steps cs -> com = com'.
  Proof.
    intros H. rewrite !cfold1_sum by auto. intros E.
    rewrite (madd_comm K O com), (madd_comm K O com') in E. now apply madd_cancel_l in E.
  Qed.
End Unique.

(** ** IdentityOutput ignores trailing elements *)
Section Identity.
  Context {R : Type} {K : field} {OA OB : carrier K} {T : module K}.

  Lemma zipw_junk_l {A} (f : A -> A -> A) (l r j : list A) : length r <= length l ->
    zipw f (l ++ j) r = zipw f l r.
  Proof.
    revert r. induction l; intros r H; destruct r; cbn in *; try lia; auto.
    - destruct j; reflexivity.
    - f_equal. apply IHl. lia.
  Qed.

  Lemma zipw_junk_r {A} (f : A -> A -> A) (l r j : list A) : length l <= length r ->
    zipw f l (r ++ j) = zipw f l r.
  Proof.
    revert r. induction l; intros r H; destruct r; cbn in *; try lia; auto.
    f_equal. apply IHl. lia.
  Qed.

  (** if the first round has vectors no longer than com, the tail of com beyond is dropped *)
  Lemma cfold1_identity_junk (pr : com3 OA OB (identity_output T) -> identity_output T)
      (com junk : identity_output T) s steps (c : K) cs :
    length (pr (fst s)) <= length com ->
    cfold1 (O := identity_output T) pr ((com ++ junk)%list : list T) (s :: steps) (c :: cs) =
    cfold1 (O := identity_output T) pr com (s :: steps) (c :: cs).
  Proof.
    intros H. cbn [cfold1]. f_equal. cbn [cadd cscale identity_output].
    rewrite zipw_junk_r; auto. now rewrite map_length.
  Qed.
End Identity.

(** Provers that use the trapdoors of a setup (not code of the repository): they prove what they like about commitments whose
    logarithms they know.  All rounds but the first are empty. *)
Require Import List Arith NArith ZArith Lia Bool Field.
Import ListNotations.
Require Import Verif.Outcome Verif.Algebra Verif.Rust Verif.Spec Verif.ListFacts Verif.RustFacts
  Verif.InnerProducts Verif.Commitments Verif.InnerProductFacts Verif.CommitFacts Verif.Gipa
  Verif.GipaFacts Verif.GipaComplete Verif.GipaTop Verif.Poly Verif.PolyFacts Verif.Tipa Verif.KeyFacts
  Verif.TipaFacts Verif.Ssm Verif.SsmFacts Verif.VerifyFacts.

Section Rounds.
  Context {K : field} {OA OB OT : carrier K}.
  Variables (D : bytes -> bytes) (fuel : nat).
  (** the challenges of given rounds *)
  Fixpoint replay (prev : K) (steps : list (com3 OA OB OT * com3 OA OB OT)) : res (list K) :=
    match steps with
    | [] => Ok []
    | s :: steps =>
      do (c, _) <- gipa_challenge D fuel 0 prev (fst s) (snd s);
      do cs <- replay c steps;
      Ok (c :: cs)
    end.
  Lemma replay_chain prev steps : (forall prev (c1 c2 : com3 OA OB OT), exists c, gipa_challenge D fuel 0 prev c1 c2 = Ok c) ->
    exists cs, replay prev steps = Ok cs /\ chain D fuel prev steps cs.
  Proof using.
    intros HL. revert prev. induction steps as [|s steps IH]; intros prev.
    - exists []. split; [reflexivity|constructor].
    - destruct (HL prev (fst s) (snd s)) as [[c ci] Hc]. destruct (IH c) as [cs [Hr Hch]]. exists (c :: cs). cbn [replay]. rewrite Hc. cbn [rbind].
      rewrite Hr. split; [reflexivity|]. econstructor; eauto.
  Qed.

  (** [zA], [zB], [zT]: commitments to zero; [oT]: commitment to the unit of the inner products *)
  Variables (zA : OA) (zB : OB) (zT oT : OT).
  Definition empty_round : com3 OA OB OT * com3 OA OB OT := ((zA, zB, zT), (zA, zB, zT)).
  Definition rounds_for (z : K) (k : nat) : list (com3 OA OB OT * com3 OA OB OT) :=
    ((zA, zB, if feqb z f0 then oT else zT), (zA, zB, zT)) :: repeat empty_round k.
  (** the inner product after the first round *)
  Definition after_first (z : K) (cs : list K) : K := if feqb z f0 then hd f1 cs else z.
End Rounds.

Section Tipa.
  Context {R : Type} {P : pairing}.
  Notation K := (pK P).
  Add Field KfTrap : (f_theory (pK P)).
  Context {MA MB MT KT : module (pK P)} {OA OB OT : carrier (pK P)}.
  Variables (D : bytes -> bytes) (fuel : nat).
  Variables (alpha beta : K).

  (** Proof for commitments with the logarithms [x], [y], [z] to the base of the commitments to [ma], [mb] and their product; also the point
      of the openings of the keys.  [u] can be chosen freely. *)
  Definition tipa_with_trapdoors (ma : MA) (mb : MB) (zA : OA) (zB : OB) (zT oT : OT) (x y z r u : K) (k : nat)
    : res (tipa_proof P MA MB OA OB OT * K) :=
    let steps := rounds_for zA zB zT oT z k in
    do cs <- replay D fuel f0 steps;
    let w := after_first z cs in
    let ck_a := (x *f finv u) *m pr_h P in
    let ck_b := (y *f u *f finv w) *m pr_g P in
    do t0 <- runwrap (hd_error (rev cs));
    do c <- rand_challenge D fuel 0 (tipa_kzg_payload t0 ck_a ck_b);
    let open_a := finv (beta -f c) *m (ck_a -m poly_eval_product_form (map finv (rev cs)) c (finv r) *m pr_h P) in
    let open_b := finv (alpha -f c) *m (ck_b -m poly_eval_product_form (rev cs) c f1 *m pr_g P) in
    Ok (mk_tipa_proof (mk_gipa_proof (rev steps) (u *m ma, (w *f finv u) *m mb)) (ck_a, ck_b) (open_a, open_b), c).

  (** The same for a structured scalar message [b]; also the folded powers of [b]. *)
  Definition tssm_with_trapdoor (ma : MA) (zA : OA) (zB : mod_carrier (fmod K)) (zT oT : OT) (x z b : K) (k : nat)
    : res (tssm_proof P MA OA OT * K * K) :=
    let steps := rounds_for zA zB zT oT z k in
    do cs <- replay D fuel f0 steps;
    let w := after_first z cs in
    let s := poly_evaluate (subs (map finv (rev cs))) b in
    let ck_a := (x *f s *f finv w) *m pr_h P in
    do t0 <- runwrap (hd_error (rev cs));
    do c <- rand_challenge D fuel 0 (tssm_kzg_payload t0 ck_a);
    let open_a := finv (beta -f c) *m (ck_a -m poly_eval_product_form (map finv (rev cs)) c f1 *m pr_h P) in
    Ok (mk_tssm_proof (mk_gipa_proof (rev steps) ((w *f finv s) *m ma, (f0 : fmod K))) ck_a open_a, c, s).

  Context {XA XB XT : module K} (dA : XA -> OA) (dB : XB -> OB) (dT : XT -> OT).
  Context (fA : pG2 P -> MA -> XA) (fB : pG1 P -> MB -> XB) (fT : KT -> MT -> XT).

  Lemma fold_empty {X : module K} {O : carrier K} (d : X -> O) (pr : com3 OA OB OT -> O) zA zB zT k :
    (forall a b, d (a +m b) = cadd (d a) (d b)) -> (forall x a, d (x *m a) = cscale x (d a)) -> pr (zA, zB, zT) = d m0 ->
    forall cs v, cfold1 pr (d v) (repeat (empty_round zA zB zT) k) cs = d v.
  Proof using.
    intros Hadd Hsc H0. induction k as [|k IH]; intros cs v; [reflexivity|]. destruct cs as [|c cs]; [reflexivity|].
    cbn [repeat cfold1 empty_round fst snd]. rewrite H0, <- !Hsc, <- !Hadd, !mscale_0_r, madd_0_l, madd_0_r. apply IH.
  Qed.
  (** the first round *)
  Lemma fold_rounds {X : module K} {O : carrier K} (d : X -> O) (pr : com3 OA OB OT -> O) zA zB zT oT z k v0 v1 :
    (forall a b, d (a +m b) = cadd (d a) (d b)) -> (forall x a, d (x *m a) = cscale x (d a)) -> pr (zA, zB, zT) = d m0 ->
    pr (zA, zB, if feqb z f0 then oT else zT) = d v1 ->
    forall cs, cs <> [] -> cfold1 pr (d v0) (rounds_for zA zB zT oT z k) cs = d (hd f1 cs *m v1 +m v0).
  Proof using.
    intros Hadd Hsc H0 H1 cs Hne. destruct cs as [|c cs]; [congruence|]. unfold rounds_for. cbn [cfold1 fst snd hd].
    rewrite H0, H1, <- !Hsc, <- !Hadd, mscale_0_r, madd_0_r. now apply fold_empty.
  Qed.

  Lemma open_ok (M : module K) (ck g : M) p t c : c <> t -> ck -m p *m g = (t -f c) *m (finv (t -f c) *m (ck -m p *m g)).
  Proof using.
    intros H. rewrite <- mscale_mul. assert (Hn : t -f c <> f0) by (intros Hz; apply H; transitivity (t -f (t -f c)); [ring|rewrite Hz; ring]).
    replace ((t -f c) *f finv (t -f c)) with (f1 : K) by (field; exact Hn). now rewrite mscale_1.
  Qed.
  Lemma after_neq0 z (cs : list K) : cs <> [] -> Forall (fun c => c <> f0) cs -> after_first z cs <> f0.
  Proof using.
    intros Hne Hnz. unfold after_first. destruct (feqb z f0) eqn:Ez; [|now apply feqb_false].
    destruct cs as [|c cs]; [congruence|]. now inversion Hnz.
  Qed.

  Lemma tipa_with_trapdoors_ok (LMC : dhc R MA (pG2 P) OA) (RMC : dhc R MB (pG1 P) OB) (IPC : dhc R MT KT OT) ip (th : MA -> MB -> MT)
      (LA : lin_commit LMC dA fA) (LB : lin_commit RMC dB fB) (LT : ip_commit IPC dT fT) (LI : lin_ip ip th) ma mb kt x y z r u k :
    (forall prev (c1 c2 : com3 OA OB OT), exists c, gipa_challenge D fuel 0 prev c1 c2 = Ok c) ->
    (forall p, exists c : K, rand_challenge D fuel 0 p = Ok c) -> r <> f0 -> u <> f0 ->
    exists proof c,
      tipa_with_trapdoors ma mb (dA m0) (dB m0) (dT m0) (dT (fT kt (th ma mb))) x y z r u k = Ok (proof, c) /\
      length (gp_steps (tp_gipa proof)) = S k /\
      (c <> alpha -> c <> beta ->
       tipa_verify_with_srs_shift LMC RMC IPC ip D fuel (trap_vsrs alpha beta) kt
         (dA (x *m fA (pr_h P) ma), dB (y *m fB (pr_g P) mb), dT (fT kt (z *m th ma mb))) proof r = Ok true).
  Proof using.
    intros HL HL2 Hr Hu. unfold tipa_with_trapdoors.
    set (steps := rounds_for (dA m0) (dB m0) (dT m0) (dT (fT kt (th ma mb))) z k).
    destruct (replay_chain D fuel f0 steps HL) as [cs [Hrep Hch]]. rewrite Hrep. cbn [rbind].
    assert (Hlen := chain_length _ _ _ _ _ Hch). assert (Hls : length steps = S k) by (unfold steps, rounds_for; cbn [length]; now rewrite repeat_length).
    rewrite Hls in Hlen. destruct (rev_chain_hd cs k Hlen) as [t0 Ht0]. rewrite Ht0. cbn [runwrap rbind].
    set (w := after_first z cs). set (cka := (x *f finv u) *m pr_h P). set (ckb := (y *f u *f finv w) *m pr_g P).
    destruct (HL2 (tipa_kzg_payload t0 cka ckb)) as [c Hc]. rewrite Hc. cbn [rbind].
    eexists _, c. split; [reflexivity|]. cbn [tp_gipa gp_steps]. split; [now rewrite rev_length|]. intros Hca Hcb.
    assert (Hne : cs <> []) by (intros ->; discriminate Hlen). assert (Hnz := chain_nonzero _ _ _ _ _ Hch).
    assert (Hw : w <> f0) by now apply after_neq0.
    apply (tipa_verify_iff D fuel dA dB dT fA fB fT th LMC RMC IPC ip LA LB LT LI).
    exists cs, t0, c. cbn [tp_gipa tp_final_ck tp_final_ck_proof gp_steps gp_base fst snd]. rewrite rev_involutive.
    split; [exact Hch|]. split; [exact Ht0|]. split; [exact Hc|]. split; [exact Hr|].
    split; [now apply open_ok|]. split; [now apply open_ok|].
    destruct (lc_bil _ _ _ LA) as [_ _ A1 A2]. destruct (lc_bil _ _ _ LB) as [_ _ B1 B2]. destruct (li_bil _ _ LI) as [_ _ T1 T2].
    split; [|split].
    - unfold com_a at 2. cbn [fst snd]. unfold steps. rewrite (fold_rounds dA com_a _ _ _ _ z k _ m0 (lc_add _ _ _ LA) (lc_scale _ _ _ LA) eq_refl eq_refl cs Hne).
      rewrite mscale_0_r, madd_0_l. f_equal. unfold cka. rewrite A1, A2, <- mscale_mul. f_equal. field. exact Hu.
    - unfold com_b at 2. cbn [fst snd]. unfold steps. rewrite (fold_rounds dB com_b _ _ _ _ z k _ m0 (lc_add _ _ _ LB) (lc_scale _ _ _ LB) eq_refl eq_refl cs Hne).
      rewrite mscale_0_r, madd_0_l. f_equal. unfold ckb. rewrite B1, B2, <- mscale_mul. f_equal. field. auto.
    - unfold com_t at 2. cbn [fst snd]. unfold steps.
      rewrite (fold_rounds dT com_t _ _ _ _ z k _ (if feqb z f0 then fT kt (th ma mb) else m0) (ic_dadd _ _ _ LT) (ic_dscale _ _ _ LT) eq_refl
        ltac:(unfold com_t; cbn [snd]; destruct (feqb z f0); reflexivity) cs Hne).
      f_equal. rewrite T1, T2, <- mscale_mul, !(ic_scale _ _ _ LT). replace (u *f (w *f finv u)) with w by (field; exact Hu).
      unfold w, after_first. destruct (feqb z f0) eqn:Ez.
      + apply feqb_spec in Ez. rewrite Ez, mscale_0_l, madd_0_r. reflexivity.
      + rewrite mscale_0_r, madd_0_l. reflexivity.
  Qed.
End Tipa.

Section Ssm.
  Context {R : Type} {P : pairing}.
  Notation K := (pK P).
  Add Field KfTrapSsm : (f_theory (pK P)).
  Context {MA MT KT : module (pK P)} {OA OT : carrier (pK P)}.
  Variables (D : bytes -> bytes) (fuel : nat) (E : penv).
  Variables (alpha beta : K).
  Context {XA XT : module K} (dA : XA -> OA) (dT : XT -> OT) (fA : pG2 P -> MA -> XA) (fT : KT -> MT -> XT).

  Lemma tssm_with_trapdoor_ok (LMC : dhc R MA (pG2 P) OA) (IPC : dhc R MT KT OT) ip (th : MA -> fmod K -> MT)
      (LA : lin_commit LMC dA fA) (LT : ip_commit IPC dT fT) (LI : lin_ip ip th) ma kt x z b k :
    (forall prev (c1 c2 : com3 OA (mod_carrier (fmod K)) OT), exists c, gipa_challenge D fuel 0 prev c1 c2 = Ok c) ->
    (forall p, exists c : K, rand_challenge D fuel 0 p = Ok c) ->
    exists proof c s,
      tssm_with_trapdoor D fuel beta ma (dA m0) (f0 : mod_carrier (fmod K)) (dT m0) (dT (fT kt (th ma (f1 : fmod K)))) x z b k = Ok (proof, c, s) /\
      length (gp_steps (ts_gipa proof)) = S k /\
      (exists cs, chain D fuel f0 (rev (gp_steps (ts_gipa proof))) cs /\ s = poly_evaluate (subs (map finv (rev cs))) b) /\
      (c <> beta -> s <> f0 ->
       tssm_verify LMC IPC ip D fuel E (trap_vsrs alpha beta) kt (dA (x *m fA (pr_h P) ma), dT (fT kt (z *m th ma (f1 : fmod K)))) b proof = Ok true).
  Proof using.
    intros HL HL2. unfold tssm_with_trapdoor.
    set (steps := rounds_for (dA m0) (f0 : mod_carrier (fmod K)) (dT m0) (dT (fT kt (th ma (f1 : fmod K)))) z k).
    destruct (replay_chain D fuel f0 steps HL) as [cs [Hrep Hch]]. rewrite Hrep. cbn [rbind].
    assert (Hlen := chain_length _ _ _ _ _ Hch). assert (Hls : length steps = S k) by (unfold steps, rounds_for; cbn [length]; now rewrite repeat_length).
    rewrite Hls in Hlen. destruct (rev_chain_hd cs k Hlen) as [t0 Ht0]. rewrite Ht0. cbn [runwrap rbind].
    set (w := after_first z cs). set (s := poly_evaluate (subs (map finv (rev cs))) b). set (cka := (x *f s *f finv w) *m pr_h P).
    destruct (HL2 (tssm_kzg_payload t0 cka)) as [c Hc]. rewrite Hc. cbn [rbind].
    eexists _, c, s. split; [reflexivity|]. cbn [ts_gipa gp_steps]. split; [now rewrite rev_length|].
    split; [exists cs; rewrite rev_involutive; split; [exact Hch|reflexivity]|]. intros Hcb Hs.
    assert (Hne : cs <> []) by (intros ->; discriminate Hlen). assert (Hnz := chain_nonzero _ _ _ _ _ Hch).
    assert (Hw : w <> f0) by now apply after_neq0.
    apply (tssm_verify_iff D fuel E dA dT fA fT th LMC IPC ip LA LT LI).
    exists cs, t0, c. cbn [ts_gipa ts_final_ck ts_final_ck_proof gp_steps gp_base fst snd]. rewrite rev_involutive.
    split; [exact Hch|]. split; [exact Ht0|]. split; [exact Hc|]. split; [now apply open_ok|].
    destruct (lc_bil _ _ _ LA) as [_ _ A1 A2]. destruct (li_bil _ _ LI) as [_ _ T1 T2]. split.
    - unfold steps. rewrite (fold_rounds dA com_a _ _ _ _ z k _ m0 (lc_add _ _ _ LA) (lc_scale _ _ _ LA) eq_refl eq_refl cs Hne).
      rewrite mscale_0_r, madd_0_l. f_equal. unfold cka. rewrite A1, A2, <- mscale_mul. f_equal. field. auto.
    - unfold steps.
      rewrite (fold_rounds dT com_t _ _ _ _ z k _ (if feqb z f0 then fT kt (th ma (f1 : fmod K)) else m0) (ic_dadd _ _ _ LT) (ic_dscale _ _ _ LT) eq_refl
        ltac:(unfold com_t; cbn [snd]; destruct (feqb z f0); reflexivity) cs Hne).
      f_equal. fold s. rewrite T1. assert (Hth : th ma (s : fmod K) = s *m th ma (f1 : fmod K)).
      { rewrite <- T2. f_equal. change (s = s *f f1). ring. }
      change (fcar K) with (mcar (fmod K)) in Hth. rewrite Hth, <- mscale_mul, !(ic_scale _ _ _ LT). replace (w *f finv s *f s) with w by (field; exact Hs).
      unfold w, after_first. destruct (feqb z f0) eqn:Ez.
      + apply feqb_spec in Ez. rewrite Ez, mscale_0_l, madd_0_r. reflexivity.
      + rewrite mscale_0_r, madd_0_l. reflexivity.
  Qed.
End Ssm.

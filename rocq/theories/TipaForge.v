(** An adversary against TIPA (not code of the repository), as in Forger.v: TIPA with the first inner product shifted
    by [d].  Uses the SRS, the vectors and the library's own functions only. *)
Require Import List Arith NArith ZArith Lia Bool Field.
Import ListNotations.
Require Import Verif.Outcome Verif.Algebra Verif.Rust Verif.Spec Verif.ListFacts Verif.RustFacts
  Verif.InnerProducts Verif.Commitments Verif.InnerProductFacts Verif.CommitFacts Verif.Gipa
  Verif.GipaFacts Verif.GipaComplete Verif.GipaTop Verif.GipaAttack Verif.Poly Verif.PolyFacts Verif.Tipa Verif.KeyFacts
  Verif.TipaFacts Verif.Ssm Verif.SsmFacts Verif.VerifyFacts Verif.Forger Verif.PcAttack.

Section TipaForge.
  Context {R : Type} {P : pairing}.
  Notation K := (pK P).
  Context {MA MB MT KT : module (pK P)} {OA OB OT : carrier (pK P)}.
  Variable LMC : dhc R MA (pG2 P) OA.
  Variable RMC : dhc R MB (pG1 P) OB.
  Variable IPC : dhc R MT KT OT.
  Variable ip : list MA -> list MB -> res MT.
  Variable D : bytes -> bytes.
  Variable fuel : nat.

  Definition tipa_forger (s : srs P) (values : list MA * list MB) (ck : list (pG2 P) * list (pG1 P) * KT) (r_shift : K) (d : MT)
    : res (tipa_proof P MA MB OA OB OT * K) :=
    let '(ck_a, ck_b, ck_t) := ck in
    do (proof, aux, c1) <- gipa_forger LMC RMC IPC ip D fuel values (ck_a, ck_b, [ck_t]) d;
    let '(ck_a_final, ck_b_final) := ga_ck_base aux in
    let transcript := ga_transcript aux in
    do transcript_inverse <- invert_all transcript;
    do r_inverse <- runwrap (finverse r_shift);
    do t0 <- runwrap (hd_error transcript);
    do c <- rand_challenge D fuel 0 (tipa_kzg_payload t0 ck_a_final ck_b_final);
    do ck_a_kzg_opening <- prove_ck_kzg_opening (h_beta_powers s) transcript_inverse r_inverse c;
    do ck_b_kzg_opening <- prove_ck_kzg_opening (g_alpha_powers s) transcript f1 c;
    Ok (mk_tipa_proof proof (ck_a_final, ck_b_final) (ck_a_kzg_opening, ck_b_kzg_opening), c1).

  Context {XA XB XT : module K} (dA : XA -> OA) (dB : XB -> OB) (dT : XT -> OT).
  Context (fA : pG2 P -> MA -> XA) (fB : pG1 P -> MB -> XB) (fT : KT -> MT -> XT) (th : MA -> MB -> MT).
  Context (LA : lin_commit LMC dA fA) (LB : lin_commit RMC dB fB) (LT : ip_commit IPC dT fT) (LI : lin_ip ip th).

  Lemma tipa_forger_ok alpha beta k a b kt (r : K) (d : MT) :
    (forall prev (c1 c2 : com3 OA OB OT), exists c, gipa_challenge D fuel 0 prev c1 c2 = Ok c) ->
    (forall p, exists c : K, rand_challenge D fuel 0 p = Ok c) -> r <> f0 ->
    length a = 2 ^ S k -> length b = 2 ^ S k ->
    exists proof c, c <> f0 /\
      tipa_forger (trap_srs alpha beta (2 ^ S k)) (a, b) (key_vec (2 ^ S k) beta (finv r) (pr_h P), key_vec (2 ^ S k) alpha f1 (pr_g P), kt) r d = Ok (proof, c) /\
      tipa_verify_with_srs_shift LMC RMC IPC ip D fuel (trap_vsrs alpha beta) kt
        (dA (dot fA (key_vec (2 ^ S k) beta (finv r) (pr_h P)) a), dB (dot fB (key_vec (2 ^ S k) alpha f1 (pr_g P)) b),
         dT (fT kt (dot th a b -m c *m d))) proof r = Ok true.
  Proof using LA LB LT LI.
    intros HL HL2 Hr Ha Hb.
    set (ka := key_vec (2 ^ S k) beta (finv r) (pr_h P)). set (kb := key_vec (2 ^ S k) alpha f1 (pr_g P)).
    assert (Hka : length ka = 2 ^ S k) by apply key_vec_length.
    assert (Hkb : length kb = 2 ^ S k) by apply key_vec_length.
    destruct (gipa_forger_ok D fuel dA dB dT fA fB fT th LMC RMC IPC ip LA LB LT LI k a b ka kb kt d HL Ha Hb Hka Hkb)
      as [proof [aux [c [cs [Hrun [Hch [Hk [Htr [Hckb [E1 [E2 Hf]]]]]]]]]]].
    assert (Hlcs := chain_length _ _ _ _ _ Hch). rewrite rev_length, Hk in Hlcs.
    assert (Hnz := chain_nonzero _ _ _ _ _ Hch).
    set (cr := rev (c :: cs)) in *. set (csi := map finv cr) in *.
    assert (Hlr : length cr = S k) by (unfold cr; now rewrite rev_length).
    assert (Hli : length csi = S k) by (unfold csi; now rewrite map_length).
    assert (Hnr : Forall (fun x => x <> f0) cr) by (now apply Forall_rev).
    assert (Hni : Forall (fun x => x <> f0) csi) by (now apply map_finv_neq0).
    set (cka := dot smul ka (subs csi : list (fmod K))) in *. set (ckb := dot smul kb (subs cr : list (fmod K))) in *.
    destruct (rev_chain_hd (c :: cs) k Hlcs) as [t0 Ht0]. fold cr in Ht0.
    destruct (HL2 (tipa_kzg_payload t0 cka ckb)) as [z Hz].
    destruct (opening_g2_complete (P := P) alpha beta (2 * 2 ^ length csi - 1) csi (finv r) z Hni (finv_neq0 _ _ Hr) eq_refl) as [oa [Hoa Va]].
    destruct (opening_g1_complete (P := P) alpha beta (2 * 2 ^ length cr - 1) cr f1 z Hnr (f1_neq_f0 K) eq_refl) as [ob [Hob Vb]].
    exists (mk_tipa_proof proof (cka, ckb) (oa, ob)), c. split.
    { inversion Hnz. assumption. }
    split.
    { unfold tipa_forger. rewrite Hrun. cbn [rbind].
      rewrite Hckb, Htr, Ht0. cbn [runwrap rbind]. rewrite invert_all_ok by auto. cbn [rbind].
      rewrite finverse_neq by auto. cbn [runwrap rbind]. fold csi. rewrite Hz. cbn [rbind].
      unfold trap_srs. cbn [h_beta_powers g_alpha_powers]. rewrite <- Hli at 1. rewrite Hoa. cbn [rbind]. rewrite <- Hlr. rewrite Hob. reflexivity. }
    apply (tipa_verify_iff D fuel dA dB dT fA fB fT th LMC RMC IPC ip LA LB LT LI).
    exists (c :: cs), t0, z. cbn [tp_gipa tp_final_ck tp_final_ck_proof fst snd].
    unfold cfold in Hf. cbn [com_a com_b com_t fst snd] in *.
    pose proof (f_equal (fun x => fst (fst x)) Hf) as F1. pose proof (f_equal (fun x => snd (fst x)) Hf) as F2.
    pose proof (f_equal snd Hf) as F3. cbn [fst snd] in F1, F2, F3.
    split; [exact Hch|]. split; [exact Ht0|]. split; [exact Hz|]. split; [exact Hr|].
    split. { apply verify_g2_iff with (alpha := alpha). unfold cka, ka. rewrite <- Hli, dot_key_vec. exact Va. }
    split. { apply verify_g1_iff with (beta := beta). unfold ckb, kb. rewrite <- Hlr, dot_key_vec. exact Vb. }
    split; [symmetry; exact F1|]. split; [symmetry; exact F2|]. symmetry. exact F3.
  Qed.
End TipaForge.

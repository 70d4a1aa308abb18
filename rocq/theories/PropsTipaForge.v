(** Property C69: what an accepted TIPA proof says about the inner product of the committed vectors. *)
Require Import List Arith NArith ZArith Lia Bool Field.
Import ListNotations.
Require Import Verif.Outcome Verif.Algebra Verif.Zp Verif.Rust Verif.InnerProducts Verif.Commitments
  Verif.Gipa Verif.Poly Verif.Tipa Verif.Ssm Verif.Spec Verif.ListFacts
  Verif.RustFacts Verif.InnerProductFacts Verif.CommitFacts Verif.GipaFacts Verif.GipaComplete Verif.GipaTop Verif.GipaAttack
  Verif.PolyFacts Verif.KeyFacts Verif.TipaFacts Verif.SsmFacts
  Verif.VerifyFacts Verif.SpecialFacts
  Verif.PropsBase Verif.PropsGipa Verif.PropsTipa Verif.PropsSsm Verif.PropsVerify Verif.PropsSpecial Verif.Forger Verif.PcAttack
  Verif.TipaForge Verif.PropsPoly Verif.PropsPcVerify.

Section Forged.
  Context {R : Type} {P : pairing}.
  Notation K := (pK P).
  Variables (E : penv) (HE : 1 <= threads E) (D : bytes -> bytes) (fuel : nat) (HD : digest16 D).
  Variables (rand : sampler R (pK P)) (r1 : sampler R (pG1 P)) (r2 : sampler R (pG2 P)).
  Hypothesis HL2 : draws_end K D fuel.

  (** For every setup, all vectors, every shift and every d <> 0 the forger's run ends with a proof that is accepted for
      the honest commitments of the two vectors and another value than their inner product. *)
  Theorem C69_pairing_forged_refuted (rng : R) k s kt rng' ka kb v (a : list (pG1 P)) (b : list (pG2 P)) (r : K) (d : pGT P) :
    rounds_end (mod_carrier (pGT P)) (mod_carrier (pGT P)) (identity_output (pGT P)) D fuel ->
    tipa_setup (identity (pGT P)) rand rng (2 ^ S k) = Ok (s, kt, rng') ->
    get_commitment_keys s = (ka, kb) -> get_verifier_key s = Ok v ->
    length a = 2 ^ S k -> length b = 2 ^ S k -> r <> f0 -> d <> m0 ->
    exists proof c, tipa_forger (afgho_g1 P E r2) (afgho_g2 P E r1) (identity (pGT P)) (pairing_ip P E) D fuel
        s (a, b) (shift_vec (finv r) ka, kb, kt) r d = Ok (proof, c) /\
      pairing_sum P a b -m c *m d <> pairing_sum P a b /\
      tipa_verify_with_srs_shift (afgho_g1 P E r2) (afgho_g2 P E r1) (identity (pGT P)) (pairing_ip P E) D fuel v kt
        (pairing_sum P a (shift_vec (finv r) ka), pairing_sum P kb b, [pairing_sum P a b -m c *m d]) proof r = Ok true.
  Proof using HE HD HL2.
    intros HL Hs Hk Hv Ha Hb Hr Hd.
    destruct (setup_trap rand (identity (pGT P)) rng k s kt rng' r ka kb v Hs Hk Hv Hr) as [alpha [beta [-> [E1 [-> ->]]]]].
    rewrite E1. destruct (tipa_forger_ok (afgho_g1 P E r2) (afgho_g2 P E r1) (identity (pGT P)) (pairing_ip P E) D fuel
              mid mid idout (phi_g1 P) (pr_e P) psi_id (pr_e P)
              (afgho_g1_law P E HE r2) (afgho_g2_law P E HE r1) (identity_law _) (pairing_ip_law P E HE)
              alpha beta k a b kt r d (rounds_end_live D fuel HD HL) (draws_end_live K D fuel HL2) Hr Ha Hb) as [proof [c [Hc [Hrun Hver]]]].
    exists proof, c. split; [exact Hrun|]. split; [now apply shifted_neq_m|].
    rewrite <- Hver. unfold mid, idout, psi_id, phi_g1. rewrite <- !dot_pairing_sum by (rewrite ?key_vec_length; congruence). now rewrite dot_flip.
  Qed.

  Theorem C69_multiexp_forged_refuted (rng : R) k s kt rng' ka kb v (a : list (pG1 P)) (b : list (fmod K)) (r : K) (d : pG1 P) :
    rounds_end (mod_carrier (pGT P)) (mod_carrier (pG1 P)) (identity_output (pG1 P)) D fuel ->
    tipa_setup (identity (pG1 P)) rand rng (2 ^ S k) = Ok (s, kt, rng') ->
    get_commitment_keys s = (ka, kb) -> get_verifier_key s = Ok v ->
    length a = 2 ^ S k -> length b = 2 ^ S k -> r <> f0 -> d <> m0 ->
    exists proof c, tipa_forger (afgho_g1 P E r2) (pedersen (pG1 P) r1) (identity (pG1 P)) (multiexp_ip (pG1 P)) D fuel
        s (a, b) (shift_vec (finv r) ka, kb, kt) r d = Ok (proof, c) /\
      msm_sum a b -m c *m d <> msm_sum a b /\
      tipa_verify_with_srs_shift (afgho_g1 P E r2) (pedersen (pG1 P) r1) (identity (pG1 P)) (multiexp_ip (pG1 P)) D fuel v kt
        (pairing_sum P a (shift_vec (finv r) ka), msm_sum kb b, [msm_sum a b -m c *m d]) proof r = Ok true.
  Proof using HE HD HL2.
    intros HL Hs Hk Hv Ha Hb Hr Hd.
    destruct (setup_trap rand (identity (pG1 P)) rng k s kt rng' r ka kb v Hs Hk Hv Hr) as [alpha [beta [-> [E1 [-> ->]]]]].
    rewrite E1. destruct (tipa_forger_ok (afgho_g1 P E r2) (pedersen (pG1 P) r1) (identity (pG1 P)) (multiexp_ip (pG1 P)) D fuel
              mid mid idout (phi_g1 P) smul psi_id smul
              (afgho_g1_law P E HE r2) (pedersen_law _ r1) (identity_law _) (multiexp_ip_law _)
              alpha beta k a b kt r d (rounds_end_live D fuel HD HL) (draws_end_live K D fuel HL2) Hr Ha Hb) as [proof [c [Hc [Hrun Hver]]]].
    exists proof, c. split; [exact Hrun|]. split; [now apply shifted_neq_m|].
    rewrite <- Hver. unfold mid, idout, psi_id, phi_g1. rewrite <- !dot_pairing_sum by (rewrite ?key_vec_length; congruence).
    replace (msm_sum a b) with (dot smul a b) by (apply dot_msm_sum; rewrite Ha; symmetry; exact Hb).
    match goal with |- context [msm_sum ?k b] => replace (msm_sum k b) with (dot smul k b)
      by (apply dot_msm_sum; rewrite key_vec_length; symmetry; exact Hb) end.
    now rewrite dot_flip.
  Qed.
End Forged.
Print Assumptions C69_pairing_forged_refuted.
Print Assumptions C69_multiexp_forged_refuted.

(** ** The structured-scalar-message variant *)
Theorem C69_ssm_forged_refuted {R} {P : pairing} (E : penv) (D : bytes -> bytes) (fuel : nat)
    (rand : sampler R (pK P)) (r2 : sampler R (pG2 P)) (rng : R) k s kt rng' ka kb v (a : list (pG1 P)) (b : pK P) (d : pG1 P) :
  1 <= threads E -> digest16 D -> draws_end (pK P) D fuel ->
  rounds_end (mod_carrier (pGT P)) (mod_carrier (fmod (pK P))) (identity_output (pG1 P)) D fuel ->
  tipa_setup (identity (pG1 P)) rand rng (2 ^ S k) = Ok (s, kt, rng') ->
  get_commitment_keys s = (ka, kb) -> get_verifier_key s = Ok v ->
  length a = 2 ^ S k -> d <> m0 ->
  exists proof c, tssm_forger (afgho_g1 P E r2) (identity (pG1 P)) (multiexp_ip (pG1 P)) D fuel
      s (a, powers (2 ^ S k) b) (ka, kt) d = Ok (proof, c) /\
    msm_sum a (powers (2 ^ S k) b) -m c *m d <> msm_sum a (powers (2 ^ S k) b) /\
    tssm_verify (afgho_g1 P E r2) (identity (pG1 P)) (multiexp_ip (pG1 P)) D fuel E v kt
      (pairing_sum P a ka, [msm_sum a (powers (2 ^ S k) b) -m c *m d]) b proof = Ok true.
Proof.
  intros HE HD HL2 HL Hs Hk Hv Ha Hd.
  destruct (setup_trap rand (identity (pG1 P)) rng k s kt rng' f1 ka kb v Hs Hk Hv (f1_neq_f0 _)) as [alpha [beta [-> [_ [-> ->]]]]].
  rewrite trap_keys in Hk. assert (ka = key_vec (2 ^ S k) beta f1 (pr_h P)) as -> by congruence. clear Hk.
  destruct (tssm_forger_ok D fuel E mid idout (phi_g1 P) psi_id smul (afgho_g1 P E r2) (identity (pG1 P)) (multiexp_ip (pG1 P))
     (afgho_g1_law P E HE r2) (identity_law _) (multiexp_ip_law _) alpha beta k a b kt d (trap_srs alpha beta (2 ^ S k))
     (rounds_end_live D fuel HD HL) (draws_end_live _ D fuel HL2) Ha eq_refl) as [proof [c [Hc [Hrun Hver]]]].
  exists proof, c. split; [exact Hrun|]. split; [now apply shifted_neq_m|].
  rewrite <- Hver. unfold mid, idout, psi_id, phi_g1. rewrite <- dot_pairing_sum by (rewrite key_vec_length; congruence).
  assert (Hm : dot smul a (powers (2 ^ S k) b : list (fmod (pK P))) = msm_sum a (powers (2 ^ S k) b))
    by (apply dot_msm_sum; etransitivity; [exact Ha|symmetry; apply powers_length']).
  rewrite <- Hm.
  now rewrite dot_flip.
Qed.
Print Assumptions C69_ssm_forged_refuted.

(** ** What does hold: special soundness *)
(** A tree of accepting transcripts as in C18, now of TIPA proofs with the right final keys (C56 says when a proof with
    other final keys can be accepted). *)
Definition tipa_tree_accepted {R} {P : pairing} {MA MB MT KT : module (pK P)} {OA OB OT : carrier (pK P)}
    (LMC : dhc R MA (pG2 P) OA) (RMC : dhc R MB (pG1 P) OB) (IPC : dhc R MT KT OT) (ip : list MA -> list MB -> res MT)
    (v : vsrs P) (ka : list (pG2 P)) (kb : list (pG1 P)) kt (com : com3 OA OB OT) (r : pK P)
    (t : tree (com3 OA OB OT * com3 OA OB OT) (pK P) MA MB) : Prop :=
  forall st cs base, In (st, cs, base) (paths t) ->
  exists D fuel proof, digest16 D /\ round_challenges D fuel f0 st cs /\
    tp_gipa proof = mk_gipa_proof (rev st) base /\ length ka = 2 ^ length st /\
    tp_final_ck proof = (folded_key (shift_vec (finv r) ka) (map finv cs), folded_key kb cs) /\
    tipa_verify_with_srs_shift LMC RMC IPC ip D fuel v kt com proof r = Ok true.

Section Special.
  Context {R : Type} {P : pairing} {MA MB MT XA XB XT : module (pK P)}.
  Context (fA : pG2 P -> MA -> XA) (fB : pG1 P -> MB -> XB) (th : MA -> MB -> MT).
  Variables (LMC : dhc R MA (pG2 P) (mod_carrier XA)) (RMC : dhc R MB (pG1 P) (mod_carrier XB)).
  Variable ip : list MA -> list MB -> res MT.
  Context (LA : lin_commit LMC mid fA) (LB : lin_commit RMC mid fB) (LI : lin_ip ip th).
  Variables (rand : sampler R (pK P)).

  Lemma tipa_tree_gipa {KT : module (pK P)} {OT : carrier (pK P)} (IPC : dhc R MT KT OT) rng n s kt0 rng' ka kb v kt com r t :
    tipa_setup IPC rand rng n = Ok (s, kt0, rng') -> get_commitment_keys s = (ka, kb) -> get_verifier_key s = Ok v ->
    tipa_tree_accepted LMC RMC IPC ip v ka kb kt com r t ->
    tree_accepted LMC RMC IPC ip (shift_vec (finv r) ka) kb kt com t.
  Proof using.
    intros Hs Hk Hv H st cs base Hin. destruct (H st cs base Hin) as [D [fuel [proof [HD [Hr [Hg [Hl [Hck Ha]]]]]]]].
    exists D, fuel. split; [exact HD|]. split; [exact Hr|]. rewrite <- Hg.
    apply C21_setup_structure in Hs as [Hn Hs]. destruct (C21_keys s _ _ n Hn Hs) as [[ka' [kb' [Hk' [La _]]]] Hv'].
    rewrite Hk in Hk'. injection Hk' as <- <-. rewrite Hv in Hv'. injection Hv' as ->.
    eapply C56_right_keys_sound; eauto.
    - rewrite Hg. cbn [gp_steps]. rewrite rev_length. congruence.
    - rewrite Hg. cbn [gp_steps]. rewrite rev_involutive. exact Hr.
  Qed.

  Theorem C69_special_sound_partial rng n s kt0 rng' ka kb v kt ca cb ct r t :
    tipa_setup (identity MT) rand rng n = Ok (s, kt0, rng') -> get_commitment_keys s = (ka, kb) -> get_verifier_key s = Ok v ->
    tipa_tree_accepted LMC RMC (identity MT) ip v ka kb kt (ca, cb, ct) r t -> distinct_challenges t ->
    let ka' := shift_vec (finv r) ka in
    match extract t with
    | Witness a b => length a = length ka' /\ length b = length kb /\
        dh_commit LMC ka' a = Ok ca /\ dh_commit RMC kb b = Ok cb /\ ip a b = Ok (at_ ct 0)
    | KernelA w => collides LMC ka' w (zeros ka')
    | KernelB w => collides RMC kb w (zeros kb)
    end.
  Proof using LA LB LI.
    intros Hs Hk Hv Ht Hd. cbv zeta.
    pose proof (tipa_tree_gipa (identity MT) rng n s kt0 rng' ka kb v kt (ca, cb, ct) r t Hs Hk Hv Ht) as Hg.
    exact (C18_special_sound_identity fA fB th LMC RMC ip LA LB LI _ kb kt ca cb ct t Hg Hd).
  Qed.
End Special.
Print Assumptions C69_special_sound_partial.

(** ** Runs *)
(** [2;3] . [5;7] = 31; the forger's proof is accepted for 31 - c, not for 31 *)
Example C69_example :
  (do s <- ex_srs 2; do v <- get_verifier_key s;
   let (ka, kb) := get_commitment_keys s in
   do (proof, c) <- tipa_forger (P := ZPair) (ex_L ex_env) (ex_R ex_env) ex_T (pairing_ip ZPair ex_env) toy_digest 5
     s (zl [2; 3]%Z, zl [5; 7]%Z) (ka, kb, tt) (zq 1) (zq 1);
   let com t := (pairing_sum ZPair (zl [2; 3]%Z) ka, pairing_sum ZPair kb (zl [5; 7]%Z), [t]) in
   do ok <- tipa_verify (P := ZPair) (ex_L ex_env) (ex_R ex_env) ex_T (pairing_ip ZPair ex_env) toy_digest 5 v tt (com (zp_sub (zq 31) c)) proof;
   do ok' <- tipa_verify (P := ZPair) (ex_L ex_env) (ex_R ex_env) ex_T (pairing_ip ZPair ex_env) toy_digest 5 v tt (com (zq 31)) proof;
   Ok (ok, ok', zp_eqb c (zq 0))) = Ok (true, false, false).
Proof. vm_compute. reflexivity. Qed.

(** The hypotheses of special soundness: the tree of C18 with the keys of the SRS with trapdoors 2 and 3, (1, 9) and (1, 4). *)
Definition ex_tround : excom * excom := (mkcom 1 20 5, mkcom 27 9 27).
Definition ex_ttree : tree (excom * excom) ZP ZM ZM :=
  Node ex_tround (chal 1) (chal 2) (chal 3) (chal 4) (ex_leaf 1) (ex_leaf 2) (ex_leaf 3) (ex_leaf 4).
Definition ex_open (pw : list zp) (t : list zp) (v : N) : zp :=
  match rand_challenge (K := ZP) (val_digest v) 1 0 [] with
  | Ok z => match prove_ck_kzg_opening (K := ZP) (G := ZM) pw t (zq 1) z with Ok o => o | _ => zq 0 end
  | _ => zq 0
  end.
Definition ex_tproof (v : N) (st : list (excom * excom)) (base : zp * zp) : tipa_proof ZPair ZM ZM (mod_carrier ZM) (mod_carrier ZM) (identity_output ZM) :=
  mk_tipa_proof (P := ZPair) (mk_gipa_proof (K := ZP) (MA := ZM) (MB := ZM) (rev st) base)
    (folded_key (K := ZP) (M := ZM) (shift_vec (K := ZP) (M := ZM) (finv (f := ZP) (zq 1)) (zl [1; 9]%Z)) (map finv [chal v]),
     folded_key (K := ZP) (M := ZM) (zl [1; 4]%Z) [chal v])
    (ex_open (zl [1; 3; 9]%Z) [finv (chal v)] v, ex_open (zl [1; 2; 4]%Z) [chal v] v).
Ltac taccepted v :=
  match goal with |- exists D fuel proof, _ /\ round_challenges _ _ _ ?st _ /\ tp_gipa _ = mk_gipa_proof _ ?base /\ _ =>
  exists (val_digest v), 1, (ex_tproof v st base) end;
  split; [apply val_digest16|]; split;
    [apply round_challenges_chain; [apply val_digest16|]; econstructor; [vm_compute; reflexivity|exact (chain_nil (K := ZP) (OA := mod_carrier ZM) (OB := mod_carrier ZM) (OT := identity_output ZM) _ _ _)]
    |split; [reflexivity|split; [reflexivity|split; [reflexivity|vm_compute; reflexivity]]]].
Example C69_tree_accepted :
  tipa_tree_accepted (P := ZPair) (ex_L ex_env1) (ex_R ex_env1) ex_T (pairing_ip ZPair ex_env1)
    (mk_vsrs (P := ZPair) (zq 1) (zq 1) (zq 3) (zq 2)) (zl [1; 9]%Z) (zl [1; 4]%Z) tt (mkcom 12 41 24) (zq 1) ex_ttree.
Proof.
  unfold ex_ttree, ex_leaf. intros st cs base Hin; cbn [paths map app fst snd In] in Hin;
  destruct Hin as [Hin|[Hin|[Hin|[Hin|[]]]]]; injection Hin as <- <- <-;
  [taccepted 1%N|taccepted 2%N|taccepted 3%N|taccepted 4%N].
Qed.

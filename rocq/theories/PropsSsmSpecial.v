(** Properties C74 and C75: special soundness of the arguments for structured scalar messages and of the aggregation of
    Groth16 proofs. *)
Require Import List Arith NArith ZArith Lia Bool Field.
Import ListNotations.
Require Import Verif.Outcome Verif.Algebra Verif.Zp Verif.Rust Verif.InnerProducts Verif.Commitments
  Verif.Gipa Verif.Poly Verif.Tipa Verif.Ssm Verif.Groth16 Verif.Spec Verif.ListFacts
  Verif.RustFacts Verif.InnerProductFacts Verif.CommitFacts Verif.GipaFacts Verif.GipaComplete Verif.GipaTop Verif.GipaAttack
  Verif.SerFacts Verif.PolyFacts Verif.KeyFacts Verif.TipaFacts Verif.SsmFacts Verif.RootFacts Verif.Groth16Facts
  Verif.VerifyFacts Verif.SpecialFacts Verif.SsmSpecial
  Verif.PropsBase Verif.PropsGipa Verif.PropsTipa Verif.PropsSsm Verif.PropsVerify Verif.PropsSpecial Verif.PropsGroth Verif.PropsPcVerify Verif.PropsGrothVerify
  Verif.Forger Verif.PcAttack Verif.TipaForge Verif.PropsPoly Verif.PropsTipaForge.

(** ** C74: trees of proofs for a public right message 1, b, b^2, ...  (compare C18) *)
Definition gssm_tree_accepted {R} {K : field} {MA MT KA KT : module K} {OA OT : carrier K}
    (LMC : dhc R MA KA OA) (IPC : dhc R MT KT OT) (ip : list MA -> list (fmod K) -> res MT) (E : penv)
    ka kt (com : OA * OT) (b : K)
    (t : tree (com3 OA (mod_carrier (fmod K)) OT * com3 OA (mod_carrier (fmod K)) OT) K MA (fmod K)) : Prop :=
  forall st cs base, In (st, cs, base) (paths t) ->
  exists D fuel, digest16 D /\ round_challenges D fuel f0 st cs /\
    gssm_verify LMC IPC ip D fuel E (ka, kt) com b (mk_gipa_proof (rev st) base) = Ok true.

(** the same for TIPAWithSSM, the proofs having the right final key *)
Definition tssm_tree_accepted {R} {P : pairing} {MA MT KT : module (pK P)} {OA OT : carrier (pK P)}
    (LMC : dhc R MA (pG2 P) OA) (IPC : dhc R MT KT OT) (ip : list MA -> list (fmod (pK P)) -> res MT) (E : penv)
    (v : vsrs P) (ka : list (pG2 P)) kt (com : OA * OT) (b : pK P)
    (t : tree (com3 OA (mod_carrier (fmod (pK P))) OT * com3 OA (mod_carrier (fmod (pK P))) OT) (pK P) MA (fmod (pK P))) : Prop :=
  forall st cs base, In (st, cs, base) (paths t) ->
  exists D fuel proof, digest16 D /\ round_challenges D fuel f0 st cs /\
    ts_gipa proof = mk_gipa_proof (rev st) base /\ length ka = 2 ^ length st /\
    ts_final_ck proof = folded_key ka (map finv cs) /\
    tssm_verify LMC IPC ip D fuel E v kt com b proof = Ok true.

Section C74.
  Context {R : Type}.

  Lemma folded_key_dot {K : field} {M : module K} (ka : list M) (cs : list K) : length ka = 2 ^ length cs ->
    folded_key ka (map finv cs) = dot smul ka (subs (map finv (rev cs)) : list (fmod K)).
  Proof. intros H. unfold folded_key. rewrite <- map_rev. symmetry. apply dot_subs. now rewrite map_length, rev_length. Qed.

  Lemma path1_of {K : field} {MA MT KA XA : module K} (fA : KA -> MA -> XA) (th : MA -> fmod K -> MT)
      (LMC : dhc R MA KA (mod_carrier XA)) (ip : list MA -> list (fmod K) -> res MT) (LA : lin_commit LMC mid fA) (LI : lin_ip ip th)
      D fuel ka ca ct (b : K) (proof : gssm_proof MA (mod_carrier XA) (identity_output MT)) st cs base v :
    proof = mk_gipa_proof (rev st) base -> digest16 D -> round_challenges D fuel f0 st cs ->
    length ka = 2 ^ length st ->
    dh_commit LMC [folded_key ka (map finv cs)] [fst (gp_base proof)] = Ok (folded grp_a ca proof cs) ->
    ip [fst (gp_base proof)] [folded_powers cs b] = Ok v ->
    v = folded (fun c => at_ (com_vec c) 0) (at_ ct 0) proof cs ->
    path1_ok fA th grp_a (fun c : com3 (mod_carrier XA) (mod_carrier (fmod K)) (identity_output MT) => at_ (com_vec c) 0)
      ka (powers (length ka) b) ca (at_ ct 0) st cs (fst base).
  Proof.
    intros -> HD Hr Hka H1 H2 ->. apply round_challenges_chain in Hr; auto. pose proof (chain_length _ _ _ _ _ Hr) as Hcl.
    cbn [gp_base] in *. unfold path1_ok. split; [exact Hcl|]. split; [eapply chain_nonzero; eauto|]. split; [exact Hka|].
    split; [rewrite powers_length'; exact Hka|].
    assert (Hcl' : length cs = length (gp_steps (mk_gipa_proof (MB := fmod K) (rev st) base))) by (cbn; now rewrite rev_length).
    rewrite <- cfold1_folded in H1 by exact Hcl'. rewrite <- cfold1_folded in H2 by exact Hcl'. cbn [gp_steps] in H1, H2. rewrite rev_involutive in H1, H2.
    split.
    - rewrite (lc_commit _ _ _ LA) in H1 by reflexivity. apply Ok_inj in H1. rewrite dot_single in H1. unfold mid in H1.
      rewrite <- folded_key_dot by congruence. exact H1.
    - rewrite (lin_ip_single _ _ _ _ LI) in H2. apply Ok_inj in H2. etransitivity; [|exact H2]. f_equal.
      rewrite <- folded_powers_eq. rewrite Hka. replace (2 ^ length st) with (2 ^ length (map finv (rev cs))) by (rewrite map_length, rev_length; congruence).
      apply dot_fold_powers.
  Qed.

  Theorem C74_gssm_special_sound {K : field} {MA MT KA XA : module K} (fA : KA -> MA -> XA) (th : MA -> fmod K -> MT)
      (LMC : dhc R MA KA (mod_carrier XA)) (ip : list MA -> list (fmod K) -> res MT) (LA : lin_commit LMC mid fA) (LI : lin_ip ip th)
      E ka kt ca ct b t :
    gssm_tree_accepted LMC (identity MT) ip E ka kt (ca, ct) b t -> distinct_challenges t ->
    match extract1 t with
    | inl a => length a = length ka /\ dh_commit LMC ka a = Ok ca /\ ip a (powers (length ka) b) = Ok (at_ ct 0)
    | inr w => collides LMC ka w (zeros ka)
    end.
  Proof.
    intros Hacc Hd.
    pose proof (extract1_sound fA th (lc_bil _ _ _ LA) (li_bil _ _ LI) grp_a (fun c : com3 (mod_carrier XA) (mod_carrier (fmod K)) (identity_output MT) => at_ (com_vec c) 0)
      ka (powers (length ka) b) ca (at_ ct 0) t Hd) as HE.
    match type of HE with ?A -> _ => assert (HP : A) end.
    { intros st cs a b' Hin. destruct (Hacc _ _ _ Hin) as [D [fuel [HD [Hr Hv]]]].
      apply (C55_gssm_accepts_iff D fuel E HD) in Hv. destruct Hv as [cs' [v [v' [Hr' [Hl [H1 [_ [_ [H2 [_ [_ H3]]]]]]]]]]].
      cbn [gp_steps] in Hr', Hl. rewrite rev_involutive in Hr'. rewrite rev_length in Hl.
      assert (cs' = cs) as -> by (eapply round_challenges_fun; eauto).
      exact (path1_of fA th LMC ip LA LI D fuel ka ca ct b _ st cs (a, b') v' eq_refl HD Hr Hl H1 H2 H3). }
    specialize (HE HP). destruct (extract1 t) as [a|w].
    - destruct HE as [L1 [L2 [E1 E2]]]. split; [exact L1|]. split.
      + rewrite (lc_commit _ _ _ LA) by congruence. now rewrite E1.
      + rewrite (li_ip _ _ LI) by exact L2. now rewrite <- E2.
    - destruct HE as [L1 [Hn E1]]. now apply (kernel_collides LMC mid fA LA).
  Qed.

  Lemma tssm_special_sound {P : pairing} {MA MT XA : module (pK P)} (fA : pG2 P -> MA -> XA) (th : MA -> fmod (pK P) -> MT)
      (LMC : dhc R MA (pG2 P) (mod_carrier XA)) (ip : list MA -> list (fmod (pK P)) -> res MT) (LA : lin_commit LMC mid fA) (LI : lin_ip ip th)
      E alpha beta ka kt ca ct b t :
    tssm_tree_accepted LMC (identity MT) ip E (key_of alpha beta) ka kt (ca, ct) b t -> distinct_challenges t ->
    match extract1 t with
    | inl a => length a = length ka /\ dh_commit LMC ka a = Ok ca /\ ip a (powers (length ka) b) = Ok (at_ ct 0)
    | inr w => collides LMC ka w (zeros ka)
    end.
  Proof.
    intros Hacc Hd.
    pose proof (extract1_sound fA th (lc_bil _ _ _ LA) (li_bil _ _ LI) grp_a (fun c : com3 (mod_carrier XA) (mod_carrier (fmod (pK P))) (identity_output MT) => at_ (com_vec c) 0)
      ka (powers (length ka) b) ca (at_ ct 0) t Hd) as HE.
    match type of HE with ?A -> _ => assert (HP : A) end.
    { intros st cs a b' Hin. destruct (Hacc _ _ _ Hin) as [D [fuel [proof [HD [Hr [Hg [Hl [Hck Hv]]]]]]]].
      apply (C54_tssm_accepts_iff D fuel E HD) in Hv. destruct Hv as [cs' [z [v' [Hr' [_ [_ [_ [H1 [H2 [_ H3]]]]]]]]]].
      rewrite Hg in Hr', H1, H2, H3. cbn [gp_steps] in Hr'. rewrite rev_involutive in Hr'.
      assert (cs' = cs) as -> by (eapply round_challenges_fun; eauto). rewrite Hck in H2.
      exact (path1_of fA th LMC ip LA LI D fuel ka ca ct b _ st cs (a, b') v' eq_refl HD Hr Hl H2 H1 H3). }
    specialize (HE HP). destruct (extract1 t) as [a|w].
    - destruct HE as [L1 [L2 [E1 E2]]]. split; [exact L1|]. split.
      + rewrite (lc_commit _ _ _ LA) by congruence. now rewrite E1.
      + rewrite (li_ip _ _ LI) by exact L2. now rewrite <- E2.
    - destruct HE as [L1 [Hn' E1]]. now apply (kernel_collides LMC mid fA LA).
  Qed.

  Theorem C74_tssm_special_sound {P : pairing} {MA MT XA : module (pK P)} (fA : pG2 P -> MA -> XA) (th : MA -> fmod (pK P) -> MT)
      (LMC : dhc R MA (pG2 P) (mod_carrier XA)) (ip : list MA -> list (fmod (pK P)) -> res MT) (LA : lin_commit LMC mid fA) (LI : lin_ip ip th)
      E (rand : sampler R (pK P)) rng n s kt0 rng' ka kb v kt ca ct b t :
    tipa_setup (identity MT) rand rng n = Ok (s, kt0, rng') -> get_commitment_keys s = (ka, kb) -> get_verifier_key s = Ok v ->
    tssm_tree_accepted LMC (identity MT) ip E v ka kt (ca, ct) b t -> distinct_challenges t ->
    match extract1 t with
    | inl a => length a = length ka /\ dh_commit LMC ka a = Ok ca /\ ip a (powers (length ka) b) = Ok (at_ ct 0)
    | inr w => collides LMC ka w (zeros ka)
    end.
  Proof.
    intros Hs Hk Hver Hacc Hd.
    apply C21_setup_structure in Hs as [Hn Hs]. destruct (C21_keys s _ _ n Hn Hs) as [_ Hv']. rewrite Hver in Hv'. injection Hv' as ->.
    exact (tssm_special_sound fA th LMC ip LA LI E _ _ ka kt ca ct b t Hacc Hd).
  Qed.
End C74.
Print Assumptions C74_gssm_special_sound.
Print Assumptions C74_tssm_special_sound.

(** ** C75: aggregation of Groth16 proofs *)
(** The transcripts for one challenge r: the claimed combinations, a tree for the argument about A and B and a tree for
    the argument about C. *)
Record g16_branch (P : pairing) : Type := mk_branch {
  br_r : pK P;
  br_ip : pGT P;
  br_agg : pG1 P;
  br_ab : tree (com3 (mod_carrier (pGT P)) (mod_carrier (pGT P)) (identity_output (pGT P)) *
                com3 (mod_carrier (pGT P)) (mod_carrier (pGT P)) (identity_output (pGT P))) (pK P) (pG1 P) (pG2 P);
  br_c : tree (com3 (mod_carrier (pGT P)) (mod_carrier (fmod (pK P))) (identity_output (pG1 P)) *
               com3 (mod_carrier (pGT P)) (mod_carrier (fmod (pK P))) (identity_output (pG1 P))) (pK P) (pG1 P) (fmod (pK P)) }.
Arguments mk_branch {P}.
Arguments br_r {P}.
Arguments br_ip {P}.
Arguments br_agg {P}.
Arguments br_ab {P}.
Arguments br_c {P}.

(** Every path of the two trees is part of an accepted aggregate with commitments ca, cb, cc, for which the hash function
    (which may be another one for each path) gives the challenge r and the challenges along the path; the final keys of
    these aggregates are the right ones (for others see C56). *)
Definition branch_accepted {R} {P : pairing} (E : penv) (r1 : sampler R (pG1 P)) (r2 : sampler R (pG2 P)) (v : vsrs P)
    (ka : list (pG2 P)) (kb : list (pG1 P)) (vk : g16_vk P) (inputs : list (list (pK P))) (ca cb cc : pGT P) (br : g16_branch P) : Prop :=
  let accepted D fuel pab pc :=
    digest16 D /\ drawn D fuel (mser ca ++ mser cb ++ mser cc) (br_r br) /\
    g16_verify P E D fuel r1 r2 v vk inputs (mk_agg_proof ca cb cc (br_ip br) (br_agg br) pab pc) = Ok true in
  (forall st cs base, In (st, cs, base) (paths (br_ab br)) ->
   exists D fuel pab pc, accepted D fuel pab pc /\ round_challenges D fuel f0 st cs /\
     tp_gipa pab = mk_gipa_proof (rev st) base /\ length ka = 2 ^ length st /\
     tp_final_ck pab = (folded_key (shift_vec (finv (br_r br)) ka) (map finv cs), folded_key kb cs)) /\
  (forall st cs base, In (st, cs, base) (paths (br_c br)) ->
   exists D fuel pab pc, accepted D fuel pab pc /\ round_challenges D fuel f0 st cs /\
     ts_gipa pc = mk_gipa_proof (rev st) base /\ length ka = 2 ^ length st /\
     ts_final_ck pc = folded_key ka (map finv cs)).

(** The extractor: Groth16 proofs, or two openings of one commitment under the left (right) key. *)
Inductive g16_extracted (P : pairing) : Type :=
| Proofs (pfs : list (g16_proof P))
| CollisionA (x y : list (pG1 P))
| CollisionB (x y : list (pG2 P)).
Arguments Proofs {P}.
Arguments CollisionA {P}.
Arguments CollisionB {P}.

Section Extractor.
  Context {P : pairing}.
  Fixpoint vec_eqb {K : field} {M : module K} (x y : list M) : bool :=
    match x, y with
    | [], [] => true
    | a :: x, b :: y => meqb a b && vec_eqb x y
    | _, _ => false
    end.
  Fixpoint zip_proofs (a : list (pG1 P)) (b : list (pG2 P)) (c : list (pG1 P)) : list (g16_proof P) :=
    match a, b, c with
    | x :: a, y :: b, z :: c => mk_g16_proof x y z :: zip_proofs a b c
    | _, _, _ => []
    end.
  Definition branch_extract (br : g16_branch P) (k : list (pG1 P) -> list (pG2 P) -> list (pG1 P) -> g16_extracted P) : g16_extracted P :=
    match extract (br_ab br) with
    | KernelA w => CollisionA (shift_vec (finv (br_r br)) w) (zeros w)
    | KernelB w => CollisionB w (zeros w)
    | Witness a b =>
      match extract1 (br_c br) with
      | inr w => CollisionA w (zeros w)
      | inl c => k (shift_vec (finv (br_r br)) a) b c
      end
    end.
  Fixpoint agreeing (a : list (pG1 P)) (b : list (pG2 P)) (c : list (pG1 P)) (brs : list (g16_branch P)) : g16_extracted P :=
    match brs with
    | [] => Proofs (zip_proofs a b c)
    | br :: brs => branch_extract br (fun a' b' c' =>
        if negb (vec_eqb a a') then CollisionA a a' else
        if negb (vec_eqb b b') then CollisionB b b' else
        if negb (vec_eqb c c') then CollisionA c c' else agreeing a b c brs)
    end.
  Definition g16_extract (brs : list (g16_branch P)) : g16_extracted P :=
    match brs with
    | [] => Proofs []
    | br :: brs => branch_extract br (fun a b c => agreeing a b c brs)
    end.
End Extractor.

Section C75.
  Context {R : Type} {P : pairing}.
  Notation K := (pK P).
  Add Field KfC75 : (f_theory (pK P)).
  Variables (E : penv) (HE : 1 <= threads E) (r1 : sampler R (pG1 P)) (r2 : sampler R (pG2 P)).
  Variables (rand : sampler R (pK P)) (rng : R) (n : nat) (s : srs P) (rng' : R) (ka : list (pG2 P)) (kb : list (pG1 P)) (v : vsrs P).
  Hypothesis Hs : g16_setup P rand rng n = Ok (s, rng').
  Hypothesis Hk : get_commitment_keys s = (ka, kb).
  Hypothesis Hv : get_verifier_key s = Ok v.
  Variables (vk : g16_vk P) (inputs : list (list K)) (ca cb cc : pGT P).

  Lemma vec_eqb_spec {M : module K} (x : list M) : forall y, vec_eqb x y = true <-> x = y.
  Proof using.
    induction x as [|a x IH]; intros [|b y]; cbn [vec_eqb]; try (split; congruence).
    rewrite andb_true_iff, meqb_spec, IH. split; [intros [-> ->]; reflexivity|intros [= -> ->]; auto].
  Qed.

  Definition opens_a (a : list (pG1 P)) (c : pGT P) : Prop := length a = length ka /\ dh_commit (afgho_g1 P E r2) ka a = Ok c.
  Definition opens_b (b : list (pG2 P)) (c : pGT P) : Prop := length b = length kb /\ dh_commit (afgho_g2 P E r1) kb b = Ok c.
  Definition extracted_ok (e : g16_extracted P) (good : list (g16_proof P) -> Prop) : Prop :=
    match e with
    | Proofs pfs => good pfs
    | CollisionA x y => collides (afgho_g1 P E r2) ka x y
    | CollisionB x y => collides (afgho_g2 P E r1) kb x y
    end.

  Lemma shift_dot (a : list (pG1 P)) (q : K) : length a = length ka ->
    dot (phi_g1 P) (shift_vec q ka) a = dot (phi_g1 P) ka (shift_vec q a).
  Proof using.
    intros H. assert (L1 : length (shift_vec q ka) = length ka) by (unfold shift_vec; now rewrite map_length, seq_length).
    assert (L2 : length (shift_vec q a) = length a) by (unfold shift_vec; now rewrite map_length, seq_length).
    rewrite !dot_big by congruence. rewrite L1. apply big_ext. intros i Hi. unfold shift_vec.
    rewrite (at_map_seq (fun i => fpow q i *m at_ ka i)) by exact Hi.
    rewrite (at_map_seq (fun i => fpow q i *m at_ a i)) by congruence. unfold phi_g1. now rewrite e_scale_l, e_scale_r.
  Qed.

  Lemma at_zeros {M : module K} {A} (l : list A) i : at_ (zeros l : list M) i = m0.
  Proof using. unfold at_, zeros. revert i. induction l as [|x l IH]; intros [|i]; cbn; auto. Qed.

  Lemma zeros_len {M : module K} {A B} (l : list A) : forall m : list B, length l = length m -> (zeros l : list M) = zeros m.
  Proof using. induction l as [|x l IH]; intros [|y m] H; try discriminate; [reflexivity|]. cbn [zeros map]. f_equal. apply IH. now injection H. Qed.

  Lemma shift_zero (w : list (pG1 P)) (q : K) : q <> f0 -> shift_vec q w = zeros (shift_vec q w) -> w = zeros w.
  Proof using.
    intros Hq H. apply (nth_ext _ _ m0 m0); [unfold zeros; now rewrite map_length|]. intros i Hi.
    assert (E0 : at_ (zeros w : list (pG1 P)) i = m0) by apply at_zeros.
    assert (E1 : at_ (shift_vec q w) i = m0) by (rewrite H; apply at_zeros).
    unfold shift_vec in E1. rewrite (at_map_seq (fun i => fpow q i *m at_ w i)) in E1 by exact Hi.
    apply mscale_integral in E1 as [E2|E2]; [exfalso; exact (fpow_neq0 K q i Hq E2)|].
    unfold at_ in E0, E2. congruence.
  Qed.

  Lemma zip_fields (a : list (pG1 P)) : forall (b : list (pG2 P)) (c : list (pG1 P)), length a = length b -> length a = length c ->
    map pf_a (zip_proofs a b c) = a /\ map pf_b (zip_proofs a b c) = b /\ map pf_c (zip_proofs a b c) = c /\ length (zip_proofs a b c) = length a.
  Proof using.
    induction a as [|x a IH]; intros [|y b] [|z c] H H'; try discriminate; [auto|]. cbn [zip_proofs map pf_a pf_b pf_c length].
    injection H as H. injection H' as H'. destruct (IH b c H H') as [-> [-> [-> ->]]]. auto.
  Qed.

  Lemma zip_comb_c (a : list (pG1 P)) b c m (r : K) : length a = m -> length b = m -> length c = m ->
    comb_c (zip_proofs a b c) r = big m (fun i => fpow r i *m at_ c i).
  Proof using. intros H1 H2 H3. destruct (zip_fields a b c) as [_ [_ [E1 E2]]]; try congruence. unfold comb_c. now rewrite E1, E2, H1. Qed.

  Lemma zip_comb_ab (a : list (pG1 P)) b c m (r : K) x : r <> f0 -> length a = m -> length b = m -> length c = m ->
    pairing_sum P a b = x -> comb_ab (zip_proofs (shift_vec (finv r) a) b c) r = x.
  Proof using.
    intros Hr H1 H2 H3 <-. assert (L1 : length (shift_vec (finv r) a) = length a) by (unfold shift_vec; now rewrite map_length, seq_length).
    destruct (zip_fields (shift_vec (finv r) a) b c) as [E0 [E1 [_ E2]]]; try congruence. unfold comb_ab, pairing_sum. rewrite E0, E1, E2, L1.
    apply big_ext. intros i Hi. unfold shift_vec. rewrite (at_map_seq (fun i => fpow (finv r) i *m at_ a i)) by exact Hi.
    rewrite e_scale_l, <- mscale_mul, <- fpow_mul_l. rewrite finv_r by exact Hr. rewrite fpow_1_l. apply mscale_1.
  Qed.

  Lemma branch_ok br good k : branch_accepted E r1 r2 v ka kb vk inputs ca cb cc br ->
    distinct_challenges (br_ab br) -> distinct_challenges (br_c br) ->
    (forall a b c, opens_a a ca -> opens_b b cb -> opens_a c cc ->
       comb_ab (zip_proofs a b c) (br_r br) = br_ip br -> comb_c (zip_proofs a b c) (br_r br) = br_agg br ->
       rows_usable vk inputs -> aggregate_equation vk inputs (br_r br) (br_ip br) (br_agg br) -> extracted_ok (k a b c) good) ->
    extracted_ok (branch_extract br k) good.
  Proof using HE Hs Hk Hv.
    unfold g16_setup in Hs. apply rbind_ok in Hs as [[[s' kt] rng2] [Hs' E1]]. injection E1 as -> ->.
    intros [Hab Hc] Dab Dc Hgood.
    pose proof (C21_setup_structure _ _ _ _ _ _ _ Hs') as [Hn Hst]. destruct (C21_keys s _ _ n Hn Hst) as [[ka' [kb' [Hk' [La [Lb _]]]]] Hv'].
    rewrite Hk in Hk'. injection Hk' as <- <-. rewrite Hv in Hv'. injection Hv' as ->.
    match type of Hv with _ = Ok ?x => set (v := x) in * end.
    assert (Hgen : forall D fuel pab pc, digest16 D -> drawn D fuel (mser ca ++ mser cb ++ mser cc) (br_r br) ->
      g16_verify P E D fuel r1 r2 v vk inputs (mk_agg_proof ca cb cc (br_ip br) (br_agg br) pab pc) = Ok true ->
      ab_part E D fuel r1 r2 v (mk_agg_proof ca cb cc (br_ip br) (br_agg br) pab pc) (br_r br) = Ok true /\
      c_part E D fuel r2 v (mk_agg_proof ca cb cc (br_ip br) (br_agg br) pab pc) (br_r br) = Ok true /\
      br_r br <> f0 /\ rows_usable vk inputs /\ aggregate_equation vk inputs (br_r br) (br_ip br) (br_agg br)).
    { intros D fuel pab pc HD Hr HV. pose proof HV as HV'. apply C60_groth16_accepts_iff in HV'; auto.
      destruct HV' as [Hu [r' [Hr' [H0 [_ [_ [_ Heq]]]]]]]. cbn [ag_com_a ag_com_b ag_com_c ag_ip_ab ag_agg_c] in *.
      assert (r' = br_r br) as -> by (apply drawn_iff in Hr, Hr'; congruence).
      rewrite (verify_eq E D fuel r1 r2 v vk inputs _ (br_r br)) in HV by (apply drawn_iff; auto).
      apply rbind_ok in HV as [x [Hx HV]]. apply rbind_ok in HV as [y [Hy HV]]. apply rbind_ok in HV as [w [Hz HV]].
      assert (Hxy : x && y && w = true) by congruence. apply andb_true_iff in Hxy as [Hxy ->]. apply andb_true_iff in Hxy as [-> ->]. auto. }
    assert (Tab : tipa_tree_accepted (afgho_g1 P E r2) (afgho_g2 P E r1) (identity (R := R) (pGT P)) (pairing_ip P E) v ka kb (tt : unitmod K)
      ((ca : mod_carrier (pGT P)), (cb : mod_carrier (pGT P)), ([br_ip br] : identity_output (pGT P))) (br_r br) (br_ab br)).
    { intros st cs base Hin. destruct (Hab st cs base Hin) as [D [fuel [pab [pc [[HD [Hr HV]] [Hc' [H1 [H2 H3]]]]]]]].
      exists D, fuel, pab. repeat (split; [assumption|]). exact (proj1 (Hgen D fuel pab pc HD Hr HV)). }
    assert (Tc : tssm_tree_accepted (afgho_g1 P E r2) (identity (R := R) (pG1 P)) (multiexp_ip (pG1 P)) E v ka (tt : unitmod K)
      ((cc : mod_carrier (pGT P)), ([br_agg br] : identity_output (pG1 P))) (br_r br) (br_c br)).
    { intros st cs base Hin. destruct (Hc st cs base Hin) as [D [fuel [pab [pc [[HD [Hr HV]] [Hc' [H1 [H2 H3]]]]]]]].
      exists D, fuel, pc. repeat (split; [assumption|]). exact (proj1 (proj2 (Hgen D fuel pab pc HD Hr HV))). }
    assert (Hfacts : br_r br <> f0 /\ rows_usable vk inputs /\ aggregate_equation vk inputs (br_r br) (br_ip br) (br_agg br)).
    { pose proof (paths_nonempty (br_c br)) as Hne. destruct (paths (br_c br)) as [|[[st cs] base] ?] eqn:Ep; [congruence|].
      destruct (Hc st cs base) as [D [fuel [pab [pc [[HD [Hr HV]] _]]]]]; [rewrite ?Ep; now left|]. exact (proj2 (proj2 (Hgen D fuel pab pc HD Hr HV))). }
    destruct Hfacts as [Hr0 [Hu Heq]].
    assert (Hq : finv (br_r br) <> f0) by (now apply finv_neq0).
    pose proof (C69_special_sound_partial (phi_g1 P) (pr_e P) (pr_e P) (afgho_g1 P E r2) (afgho_g2 P E r1) (pairing_ip P E)
      (afgho_g1_law P E HE r2) (afgho_g2_law P E HE r1) (pairing_ip_law P E HE) rand rng n s kt rng' ka kb v tt ca cb [br_ip br] (br_r br) (br_ab br) Hs' Hk Hv Tab Dab) as XA.
    assert (Hs2 : exists kt2 rg, tipa_setup (identity (R := R) (pG1 P)) rand rng n = Ok (s, kt2, rg)).
    { pose proof (tipa_setup_inv _ _ _ _ _ _ _ Hs') as [H0 Hi].
      edestruct (C21_setup_succeeds (identity (R := R) (pG1 P)) rand rng n tt) as [s2 Hs2]; [exact H0|reflexivity|].
      pose proof (tipa_setup_inv _ _ _ _ _ _ _ Hs2) as [_ Hi2]. rewrite Hs2, Hi2, <- Hi. eauto. }
    destruct Hs2 as [kt2 [rg Hs2]].
    pose proof (C74_tssm_special_sound (phi_g1 P) smul (afgho_g1 P E r2) (multiexp_ip (pG1 P))
      (afgho_g1_law P E HE r2) (multiexp_ip_law _) E rand rng n s kt2 rg ka kb v tt cc [br_agg br] (br_r br) (br_c br) Hs2 Hk Hv Tc Dc) as XC.
    cbv zeta in XA. unfold branch_extract. 
    assert (Lsh : forall (M : module K) (l : list M) q, length (shift_vec q l) = length l) by (intros; unfold shift_vec; now rewrite map_length, seq_length).
    assert (Hcom : forall a, length a = length ka -> dh_commit (afgho_g1 P E r2) (shift_vec (finv (br_r br)) ka) a = dh_commit (afgho_g1 P E r2) ka (shift_vec (finv (br_r br)) a)).
    { intros a Hl. rewrite !(lc_commit _ _ _ (afgho_g1_law P E HE r2)) by (rewrite ?Lsh; congruence). now rewrite shift_dot. }
    destruct (extract (br_ab br)) as [a b|w|w].
    - destruct (extract1 (br_c br)) as [c|w].
      + destruct XA as [X1 [X2 [X3 [X4 X5]]]]. destruct XC as [Y1 [Y2 Y3]]. rewrite Lsh in X1.
        assert (L1 : length (shift_vec (finv (br_r br)) a) = length ka) by (now rewrite Lsh).
        apply Hgood; auto.
        * split; [exact L1|]. rewrite <- Hcom by exact X1. exact X3.
        * split; assumption.
        * split; assumption.
        * apply (zip_comb_ab a b c n); try congruence.
          destruct (C02_pairing_outcome P E a b HE) as [[He e]|[_ He]]; [congruence|]. rewrite He in X5. apply Ok_inj in X5. exact X5.
        * rewrite (zip_comb_c _ b c n) by congruence.
          destruct (C02_multiexp_outcome _ _ c (powers (length ka) (br_r br))) as [[He e]|[_ He]].
          -- exfalso. apply He. rewrite Y1. symmetry. apply powers_length.
          -- rewrite He in Y3. apply Ok_inj in Y3. change (at_ [br_agg br] 0) with (br_agg br) in Y3. rewrite <- Y3.
             unfold msm_sum. rewrite Y1, La. apply big_ext. intros i Hi. f_equal. symmetry. unfold fat, powers. exact (at_map_seq (M := fmod K) (fun i => fpow (br_r br) i) n i Hi).
      + cbn [extracted_ok]. replace (zeros w : list (pG1 P)) with (zeros ka : list (pG1 P)); [exact XC|]. apply zeros_len. symmetry. apply XC.
    - cbn [extracted_ok]. destruct XA as [X1 [X2 [X3 [x [X4 X5]]]]]. rewrite Lsh in X2.
      rewrite Hcom in X4 by exact X2. 
      split; [|split; [now rewrite Lsh|split; [unfold zeros; rewrite map_length; exact X2|exists x; split; [exact X4|]]]].
      + intros Hz. apply X1. replace (zeros w) with (zeros (shift_vec (finv (br_r br)) w) : list (pG1 P)) in Hz by (apply zeros_len, Lsh).
        apply shift_zero in Hz; [|exact Hq]. rewrite Hz. apply zeros_len. now rewrite Lsh.
      + rewrite (lc_commit _ _ _ (afgho_g1_law P E HE r2)) by (rewrite ?Lsh; unfold zeros; rewrite map_length; congruence).
        rewrite (lc_commit _ _ _ (afgho_g1_law P E HE r2)) in X5 by (rewrite ?Lsh; unfold zeros; rewrite map_length, ?Lsh; congruence).
        rewrite <- X5. f_equal.
        rewrite (dot_zeros (afgho_g1 P E r2) mid (phi_g1 P) (afgho_g1_law P E HE r2)) by congruence.
        now rewrite (dot_zeros (afgho_g1 P E r2) mid (phi_g1 P) (afgho_g1_law P E HE r2)) by reflexivity.
    - cbn [extracted_ok]. replace (zeros w : list (pG2 P)) with (zeros kb : list (pG2 P)); [exact XA|]. apply zeros_len. symmetry. apply XA.
  Qed.

  Lemma vec_neqb {M : module K} (x y : list M) : negb (vec_eqb x y) = true -> x <> y.
  Proof using. intros H He. apply vec_eqb_spec in He. rewrite He in H. discriminate. Qed.

  Lemma agreeing_ok a b c brs :
    opens_a a ca -> opens_b b cb -> opens_a c cc ->
    Forall (fun br => branch_accepted E r1 r2 v ka kb vk inputs ca cb cc br /\ distinct_challenges (br_ab br) /\ distinct_challenges (br_c br)) brs ->
    extracted_ok (agreeing a b c brs) (fun pfs => pfs = zip_proofs a b c /\ Forall (fun br => aggregate_equation vk inputs (br_r br) (comb_ab pfs (br_r br)) (comb_c pfs (br_r br))) brs).
  Proof using HE Hs Hk Hv.
    intros Ha Hb Hc HF. induction HF as [|br brs [H1 [H2 H3]] HF IH]; [cbn; auto|]. cbn [agreeing].
    apply branch_ok; auto. intros a' b' c' Ha' Hb' Hc' E1 E2 _ Heq.
    destruct (negb (vec_eqb a a')) eqn:Na.
    { apply vec_neqb in Na. destruct Ha, Ha'. split; [exact Na|]. split; [assumption|]. split; [assumption|]. eauto. }
    destruct (negb (vec_eqb b b')) eqn:Nb.
    { apply vec_neqb in Nb. destruct Hb, Hb'. split; [exact Nb|]. split; [assumption|]. split; [assumption|]. eauto. }
    destruct (negb (vec_eqb c c')) eqn:Nc.
    { apply vec_neqb in Nc. destruct Hc, Hc'. split; [exact Nc|]. split; [assumption|]. split; [assumption|]. eauto. }
    apply negb_false_iff, vec_eqb_spec in Na, Nb, Nc. subst a' b' c'.
    destruct (agreeing a b c brs) as [pfs|x y|x y]; cbn [extracted_ok] in *; [|exact IH..].
    destruct IH as [-> IH]. split; [reflexivity|]. constructor; [|exact IH]. rewrite E1, E2. exact Heq.
  Qed.

  (** From branches for as many distinct challenges r as there are rows of inputs, the extractor computes valid
      Groth16 proofs for all the rows, which are moreover openings of the commitments; or two openings of a commitment. *)
  Theorem C75_aggregate_special_sound (brs : list (g16_branch P)) :
    length inputs = n -> n <= length brs -> NoDup (map br_r brs) ->
    Forall (fun br => branch_accepted E r1 r2 v ka kb vk inputs ca cb cc br /\ distinct_challenges (br_ab br) /\ distinct_challenges (br_c br)) brs ->
    match g16_extract brs with
    | Proofs pfs => Forall2 (g16_valid vk) inputs pfs /\
        dh_commit (afgho_g1 P E r2) ka (map pf_a pfs) = Ok ca /\ dh_commit (afgho_g2 P E r1) kb (map pf_b pfs) = Ok cb /\
        dh_commit (afgho_g1 P E r2) ka (map pf_c pfs) = Ok cc
    | CollisionA x y => collides (afgho_g1 P E r2) ka x y
    | CollisionB x y => collides (afgho_g2 P E r1) kb x y
    end.
  Proof using HE Hs Hk Hv.
    intros Hin Hlen Hnd HF.
    assert (HL : 0 < n /\ length ka = n /\ length kb = n).
    { unfold g16_setup in Hs. apply rbind_ok in Hs as [[[s' kt] rng2] [Hs' E1]]. injection E1 as -> ->.
      pose proof (C21_setup_structure _ _ _ _ _ _ _ Hs') as [Hn Hst]. destruct (C21_keys s _ _ n Hn Hst) as [[ka' [kb' [Hk' [La [Lb _]]]]] _].
      rewrite Hk in Hk'. injection Hk' as <- <-. auto. }
    destruct HL as [Hn [La Lb]].
    destruct brs as [|br brs]; [cbn in Hlen; lia|]. unfold g16_extract. inversion HF as [|? ? [H1 [H2 H3]] HF']; subst x l.
    match goal with |- match ?e with _ => _ end => change (extracted_ok e (fun pfs => Forall2 (g16_valid vk) inputs pfs /\
        dh_commit (afgho_g1 P E r2) ka (map pf_a pfs) = Ok ca /\ dh_commit (afgho_g2 P E r1) kb (map pf_b pfs) = Ok cb /\
        dh_commit (afgho_g1 P E r2) ka (map pf_c pfs) = Ok cc)) end.
    apply branch_ok; auto. intros a b c Ha Hb Hc E1 E2 _ Heq. pose proof (agreeing_ok a b c brs Ha Hb Hc HF') as HA.
    destruct (agreeing a b c brs) as [pfs|x y|x y]; cbn [extracted_ok] in *; [|exact HA..]. destruct HA as [-> HA].
    destruct Ha as [L1 Ha], Hb as [L2 Hb], Hc as [L3 Hc].
    destruct (zip_fields a b c) as [F1 [F2 [F3 F4]]]; try congruence. rewrite F1, F2, F3. split; [|auto].
    set (pfs := zip_proofs a b c) in *.
    set (ds := map (fun i => defect vk (nth i inputs []) (nth i pfs pf0)) (seq 0 (length pfs))).
    assert (Hz : Forall (fun x => x = m0) ds).
    { apply (roots_zero (map br_r (br :: brs)) ds Hnd).
      - unfold ds. rewrite !map_length, seq_length. lia.
      - intros r Hr. apply in_map_iff in Hr as [br' [<- Hr]].
        assert (He : aggregate_equation vk inputs (br_r br') (comb_ab pfs (br_r br')) (comb_c pfs (br_r br'))).
        { destruct Hr as [<-|Hr]; [rewrite E1, E2; exact Heq|]. rewrite Forall_forall in HA. exact (HA br' Hr). }
        unfold ds. rewrite <- ppe_defect by congruence. apply msub_eq0. exact He. }
    assert (Hv' : forall i, i < length pfs -> g16_valid vk (nth i inputs []) (nth i pfs pf0)).
    { intros i Hi. apply defect_valid. rewrite Forall_forall in Hz. apply Hz. unfold ds.
      apply (in_map (fun i => defect vk (nth i inputs []) (nth i pfs pf0))). apply in_seq. lia. }
    assert (Lp : length inputs = length pfs) by congruence. clear - Hv' Lp. revert inputs Lp Hv'. generalize pfs. clear.
    induction pfs as [|p pfs IH]; intros [|row rows] Lp H; try discriminate; constructor.
    - apply (H 0). cbn. lia.
    - apply IH; [now injection Lp|]. intros i Hi. apply (H (S i)). cbn. lia.
  Qed.
End C75.
Print Assumptions C75_aggregate_special_sound.


(** Runs.  [dig v w] gives the round challenge 1/v and the drawn scalar w. *)
Definition dig (v w : N) (b : bytes) : bytes := (repeat 0 15 ++ [v] ++ repeat 0 15 ++ [w + 21 * v])%N.
Lemma dig16 v w : digest16 (dig v w).
Proof. intros b. cbn. lia. Qed.
Definition ex75_0 : agg_proof ZPair :=
  mk_agg_proof (P := ZPair) (zq 0) (zq 0) (zq 0) (zq 0) (zq 0)
    (mk_tipa_proof (P := ZPair) (mk_gipa_proof (K := ZP) (MA := ZM) (MB := ZM) [] (zq 0, zq 0)) (zq 0, zq 0) (zq 0, zq 0))
    (mk_tssm_proof (P := ZPair) (mk_gipa_proof (K := ZP) (MA := ZM) (MB := fmod ZP) [] (zq 0, zq 0)) (zq 0) (zq 0)).
(** the aggregate of the proofs [ex_pfs] *)
Definition ex75 (v w : N) : agg_proof ZPair := match ex_agg (dig v w) ex_pfs with Ok (p, _) => p | _ => ex75_0 end.
Definition ex75_r (w : N) : ZP := match rand_challenge (K := ZP) (dig 1 w) 9 0 [] with Ok r => r | _ => zq 0 end.
Definition ex75_step_ab (w : N) := nth 0 (gp_steps (tp_gipa (ag_tipa_ab (ex75 1 w)))) (mkcom 0 0 0, mkcom 0 0 0).
Definition ex75_step_c (w : N) := nth 0 (gp_steps (ts_gipa (ag_tipa_c (ex75 1 w)))) (mkcom 0 0 0, mkcom 0 0 0).
Definition ex75_leaf_ab (w v : N) : tree (excom * excom) ZP ZM ZM := let b := gp_base (tp_gipa (ag_tipa_ab (ex75 v w))) in Leaf (fst b) (snd b).
Definition ex75_leaf_c (w v : N) : tree (excom * excom) ZP ZM (fmod ZP) := let b := gp_base (ts_gipa (ag_tipa_c (ex75 v w))) in Leaf (fst b) (snd b).
Definition ex75_branch (w : N) : g16_branch ZPair :=
  mk_branch (P := ZPair) (ex75_r w) (ag_ip_ab (ex75 1 w)) (ag_agg_c (ex75 1 w))
    (Node (ex75_step_ab w) (chal 1) (chal 2) (chal 3) (chal 4) (ex75_leaf_ab w 1) (ex75_leaf_ab w 2) (ex75_leaf_ab w 3) (ex75_leaf_ab w 4))
    (Node (ex75_step_c w) (chal 1) (chal 2) (chal 3) (chal 4) (ex75_leaf_c w 1) (ex75_leaf_c w 2) (ex75_leaf_c w 3) (ex75_leaf_c w 4)).
Definition ex75_accepted (br : g16_branch ZPair) : Prop :=
  branch_accepted (P := ZPair) ex_env1 ex_rand ex_rand (mk_vsrs (P := ZPair) (zq 1) (zq 1) (zq 3) (zq 2)) (zl [1; 9]%Z) (zl [1; 4]%Z) ex_vk ex_inputs
    (ag_com_a (ex75 1 2)) (ag_com_b (ex75 1 2)) (ag_com_c (ex75 1 2)) br /\
  distinct_challenges (br_ab br) /\ distinct_challenges (br_c br).

Lemma triple_inj {A B C} (a a' : A) (b b' : B) (c c' : C) : (a, b, c) = (a', b', c') -> a = a' /\ b = b' /\ c = c'.
Proof. intros [= -> -> ->]. auto. Qed.
Ltac ab75 w v :=
  match goal with |- exists D fuel pab pc, _ /\ _ /\ tp_gipa _ = mk_gipa_proof ?st ?base /\ _ /\ _ = ?ck =>
    exists (dig v w), 9, (mk_tipa_proof (P := ZPair) (mk_gipa_proof (K := ZP) (MA := ZM) (MB := ZM) st base) ck (tp_final_ck_proof (ag_tipa_ab (ex75 v w)))),
      (ag_tipa_c (ex75 v w)) end;
  split; [split; [apply dig16|split; [apply drawn_iff; vm_compute; reflexivity|vm_compute; reflexivity]]|];
  split; [apply round_challenges_chain; [apply dig16|]; econstructor;
    [vm_compute; reflexivity|exact (chain_nil (K := ZP) (OA := mod_carrier ZM) (OB := mod_carrier ZM) (OT := identity_output ZM) _ _ _)]|];
  split; [reflexivity|split; [reflexivity|reflexivity]].
Ltac c75 w v :=
  match goal with |- exists D fuel pab pc, _ /\ _ /\ ts_gipa _ = mk_gipa_proof ?st ?base /\ _ /\ _ = ?ck =>
    exists (dig v w), 9, (ag_tipa_ab (ex75 v w)),
      (mk_tssm_proof (P := ZPair) (mk_gipa_proof (K := ZP) (MA := ZM) (MB := fmod ZP) st base) ck (ts_final_ck_proof (ag_tipa_c (ex75 v w)))) end;
  split; [split; [apply dig16|split; [apply drawn_iff; vm_compute; reflexivity|vm_compute; reflexivity]]|];
  split; [apply round_challenges_chain; [apply dig16|]; econstructor;
    [vm_compute; reflexivity|exact (chain_nil (K := ZP) (OA := mod_carrier ZM) (OB := mod_carrier (fmod ZP)) (OT := identity_output ZM) _ _ _)]|];
  split; [reflexivity|split; [reflexivity|reflexivity]].
Ltac distinct75 := unfold ex75_branch; cbn [br_ab br_c]; split; [|cbn; auto];
  repeat constructor; cbn [In]; intros Hin; repeat destruct Hin as [Hin|Hin]; try contradiction; vm_compute in Hin; discriminate.
Ltac branch75 w :=
  split; [|split; once distinct75]; split; unfold ex75_branch, ex75_leaf_ab, ex75_leaf_c; cbn [br_ab br_c br_r br_ip br_agg];
  intros st cs base Hin; cbn [paths map app fst snd In] in Hin; destruct Hin as [Hin|[Hin|[Hin|[Hin|[]]]]]; apply triple_inj in Hin as [<- [<- <-]];
  [ab75 w 1%N|ab75 w 2%N|ab75 w 3%N|ab75 w 4%N|c75 w 1%N|c75 w 2%N|c75 w 3%N|c75 w 4%N].

Example C75_hypotheses :
  match g16_setup ZPair ex_scalars 2%Z 2 with
  | Ok (s, _) => get_commitment_keys s = (zl [1; 9]%Z, zl [1; 4]%Z) /\
                 get_verifier_key s = Ok (mk_vsrs (P := ZPair) (zq 1) (zq 1) (zq 3) (zq 2))
  | _ => False
  end /\
  length ex_inputs = 2 /\ NoDup (map br_r [ex75_branch 2; ex75_branch 3]) /\ Forall ex75_accepted [ex75_branch 2; ex75_branch 3].
Proof.
  split; [split; reflexivity|]. split; [reflexivity|]. split.
  - repeat constructor; cbn [In]; intros Hin; repeat destruct Hin as [Hin|Hin]; try contradiction; vm_compute in Hin; discriminate.
  - constructor; [branch75 2%N|constructor; [branch75 3%N|constructor]].
Qed.
Example C75_example :
  match g16_extract [ex75_branch 2; ex75_branch 3] with
  | Proofs [p1; p2] => zp_eqb (pf_a p1) (zq 85) && zp_eqb (pf_b p1) (zq 1) && zp_eqb (pf_c p1) (zq 2) &&
                       zp_eqb (pf_a p2) (zq 1) && zp_eqb (pf_b p2) (zq 59) && zp_eqb (pf_c p2) (zq 4)
  | _ => false
  end = true.
Proof. vm_compute. reflexivity. Qed.

(** C74: the part of the branch about C; (2, 4) is the opening of 2 + 9 * 4 and 2 + 2 * 4 the inner product *)
Ltac g74 v :=
  exists (dig v 2), 9; split; [apply dig16|]; split;
  [apply round_challenges_chain; [apply dig16|]; econstructor;
    [vm_compute; reflexivity|exact (chain_nil (K := ZP) (OA := mod_carrier ZM) (OB := mod_carrier (fmod ZP)) (OT := identity_output ZM) _ _ _)]
  |vm_compute; reflexivity].
Ltac t74 v :=
  match goal with |- exists D fuel pc, _ /\ _ /\ ts_gipa _ = mk_gipa_proof ?st ?base /\ _ /\ _ = ?ck /\ _ =>
    exists (dig v 2), 9, (mk_tssm_proof (P := ZPair) (mk_gipa_proof (K := ZP) (MA := ZM) (MB := fmod ZP) st base) ck (ts_final_ck_proof (ag_tipa_c (ex75 v 2)))) end;
  split; [apply dig16|]; split;
  [apply round_challenges_chain; [apply dig16|]; econstructor;
    [vm_compute; reflexivity|exact (chain_nil (K := ZP) (OA := mod_carrier ZM) (OB := mod_carrier (fmod ZP)) (OT := identity_output ZM) _ _ _)]
  |split; [reflexivity|split; [reflexivity|split; [reflexivity|vm_compute; reflexivity]]]].
Ltac paths74 := unfold ex75_branch, ex75_leaf_ab, ex75_leaf_c; cbn [br_c];
  intros st cs base Hin; cbn [paths map app fst snd In] in Hin; destruct Hin as [Hin|[Hin|[Hin|[Hin|[]]]]]; apply triple_inj in Hin as [<- [<- <-]].
Example C74_hypotheses :
  gssm_tree_accepted (K := ZP) (ex_L ex_env1) (identity (R := Z) ZM) (multiexp_ip ZM) ex_env1 (zl [1; 9]%Z) (tt : unitmod ZP)
    ((zq 38 : mod_carrier ZM), ([zq 10] : identity_output ZM)) (zq 2) (br_c (ex75_branch 2)) /\
  tssm_tree_accepted (P := ZPair) (ex_L ex_env1) (identity (R := Z) ZM) (multiexp_ip ZM) ex_env1 (mk_vsrs (P := ZPair) (zq 1) (zq 1) (zq 3) (zq 2))
    (zl [1; 9]%Z) (tt : unitmod ZP) ((zq 38 : mod_carrier ZM), ([zq 10] : identity_output ZM)) (zq 2) (br_c (ex75_branch 2)) /\
  distinct_challenges (br_c (ex75_branch 2)).
Proof.
  split; [paths74; [g74 1%N|g74 2%N|g74 3%N|g74 4%N]|]. split; [paths74; [t74 1%N|t74 2%N|t74 3%N|t74 4%N]|once distinct75].
Qed.
Example C74_example :
  match extract1 (br_c (ex75_branch 2)) with
  | inl [x; y] => zp_eqb x (zq 2) && zp_eqb y (zq 4)
  | _ => false
  end = true.
Proof. vm_compute. reflexivity. Qed.

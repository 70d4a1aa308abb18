(** Property C18: special soundness of the generalised inner product argument. *)
Require Import List Arith NArith ZArith Lia Bool Field.
Import ListNotations.
Require Import Verif.Outcome Verif.Algebra Verif.Zp Verif.Rust Verif.InnerProducts Verif.Commitments
  Verif.Gipa Verif.Spec Verif.ListFacts Verif.RustFacts Verif.InnerProductFacts Verif.CommitFacts
  Verif.GipaFacts Verif.GipaComplete Verif.GipaTop Verif.GipaAttack Verif.SerFacts Verif.PropsBase Verif.PropsGipa
  Verif.SpecialFacts.

(** A tree of transcripts: a node carries one round (com_1, com_2) answered under four challenges, a leaf
    the last messages. Each path from the root is a proof; the hash function (the random oracle) may be
    another one for each path, but it must produce the challenges written along the path, and
    [GIPA::verify] must accept the path's proof. *)
Definition tree_accepted {R} {K : field} {MA MB MT KA KB KT : module K} {OA OB OT : carrier K}
    (LMC : dhc R MA KA OA) (RMC : dhc R MB KB OB) (IPC : dhc R MT KT OT) (ip : list MA -> list MB -> res MT)
    ka kb kt (com : com3 OA OB OT) (t : tree (com3 OA OB OT * com3 OA OB OT) K MA MB) : Prop :=
  forall st cs base, In (st, cs, base) (paths t) ->
  exists D fuel, digest16 D /\ round_challenges D fuel f0 st cs /\
    gipa_verify LMC RMC IPC ip D fuel (ka, kb, kt) com (mk_gipa_proof (rev st) base) = Ok true.

(** [x] and [y] are different openings of one commitment *)
Definition collides {R} {K : field} {Msg Key : module K} {Out : carrier K} (C : dhc R Msg Key Out)
    (k : list Key) (x y : list Msg) : Prop :=
  x <> y /\ length x = length k /\ length y = length k /\
  exists c, dh_commit C k x = Ok c /\ dh_commit C k y = Ok c.

Definition zeros {K : field} {M : module K} {A} (l : list A) : list M := map (fun _ => m0) l.

Section Zeros.
  Context {R} {K : field} {Msg Key X : module K} {Out : carrier K} (C : dhc R Msg Key Out) (den : X -> Out) (phi : Key -> Msg -> X).
  Hypothesis L : lin_commit C den phi.

  Lemma dot_zeros {A} (l : list A) k : length l = length k -> dot phi k (zeros l) = m0.
  Proof using L.
    revert k. induction l as [|x l IH]; intros [|y k] H; try discriminate; [reflexivity|].
    cbn [zeros map]. rewrite dot_cons. change (map (fun _ => m0) l) with (zeros (M := Msg) l). rewrite IH by auto.
    rewrite madd_0_r. rewrite <- (mscale_0_l _ _ (m0 : Msg)), (bil_scale_r _ (lc_bil _ _ _ L)). apply mscale_0_l.
  Qed.

  Lemma kernel_collides k w : length w = length k -> (exists x, In x w /\ x <> m0) -> dot phi k w = m0 ->
    collides C k w (zeros k).
  Proof using L.
    intros Lw [x [Hx Hn]] E. assert (Lz : length (zeros (M := Msg) k) = length k) by apply map_length.
    split; [|split; [exact Lw|split; [exact Lz|]]].
    - intros ->. apply in_map_iff in Hx as [? [<- _]]. now apply Hn.
    - exists (den m0). split; rewrite (lc_commit _ _ _ L) by auto; do 2 f_equal; auto. now apply dot_zeros.
  Qed.
End Zeros.

Section C18.
  Context {R : Type} {K : field} {MA MB MT KA KB KT XA XB XT : module K}.
  Context (fA : KA -> MA -> XA) (fB : KB -> MB -> XB) (th : MA -> MB -> MT).
  Variables (LMC : dhc R MA KA (mod_carrier XA)) (RMC : dhc R MB KB (mod_carrier XB)).
  Variable ip : list MA -> list MB -> res MT.
  Context (LA : lin_commit LMC mid fA) (LB : lin_commit RMC mid fB) (LI : lin_ip ip th).

  (** commitments whose outputs are group elements *)
  Theorem C18_special_sound_group (fT : KT -> MT -> XT) (IPC : dhc R MT KT (mod_carrier XT))
      (LT : ip_commit IPC mid fT) ka kb kt ca cb ct t :
    tree_accepted LMC RMC IPC ip ka kb kt (ca, cb, ct) t -> distinct_challenges t ->
    match extract t with
    | Witness a b => length a = length ka /\ length b = length kb /\
        exists v, honest_com LMC RMC IPC ip ka kb kt a b v ca cb ct
    | KernelA w => collides LMC ka w (zeros ka)
    | KernelB w => collides RMC kb w (zeros kb)
    end.
  Proof using LA LB LI.
    intros Hacc Hd.
    assert (Hp : forall st cs a b, In (st, cs, (a, b)) (paths t) ->
              path_ok fA fB fT th kt grp_a grp_b grp_t ka kb ca cb ct st cs a b).
    { intros st cs a b Hin. destruct (Hacc _ _ _ Hin) as [D [fuel [HD [Hr Hv]]]].
      apply (gipa_verify_iff D fuel mid mid mid fA fB fT th LMC RMC IPC ip LA LB LT LI) in Hv.
      destruct Hv as [cs' [Hch [La [Lb [EA [EB ET]]]]]]. cbn [gp_steps gp_base fst snd] in *.
      rewrite rev_involutive in *. rewrite rev_length in La, Lb. apply round_challenges_chain in Hr; auto.
      rewrite (chain_fun _ _ _ _ _ Hch _ Hr) in *. unfold path_ok.
      split; [eapply chain_length; eauto|]. split; [eapply chain_nonzero; eauto|]. auto. }
    pose proof (extract_sound fA fB fT th (lc_bil _ _ _ LA) (lc_bil _ _ _ LB) (li_bil _ _ LI)
                  (ic_add _ _ _ LT) (ic_scale _ _ _ LT) kt _ _ _ t ka kb ca cb ct
                  (paths_sat fA fB fT th kt grp_a grp_b grp_t t ka kb ca cb ct Hd Hp)) as HE.
    assert (Lk : length ka = length kb).
    { pose proof (paths_nonempty t) as Hne. destruct (paths t) as [|[[st cs] [a b]] l]; [contradiction|].
      destruct (Hp st cs a b (or_introl eq_refl)) as [_ [_ [H1 [H2 _]]]]. congruence. }
    destruct (extract t) as [a b|w|w]; cbn [ext_ok] in HE.
    - destruct HE as [L1 [L2 [E1 [E2 E3]]]]. repeat split; auto. exists (dot th a b). unfold honest_com.
      rewrite (lc_commit _ _ _ LA), (lc_commit _ _ _ LB), (li_ip _ _ LI), (ic_commit _ _ _ LT) by congruence.
      unfold mid. rewrite E1, E2, E3. auto.
    - destruct HE as [L1 [Hn E1]]. now apply (kernel_collides LMC mid fA LA).
    - destruct HE as [L1 [Hn E1]]. now apply (kernel_collides RMC mid fB LB).
  Qed.

  (** the inner-product value committed by [IdentityCommitment]: the first entry of the vector is the
      inner product (C19: later entries are not checked) *)
  Theorem C18_special_sound_identity ka kb kt ca cb ct t :
    tree_accepted LMC RMC (identity MT) ip ka kb kt (ca, cb, ct) t -> distinct_challenges t ->
    match extract t with
    | Witness a b => length a = length ka /\ length b = length kb /\
        dh_commit LMC ka a = Ok ca /\ dh_commit RMC kb b = Ok cb /\ ip a b = Ok (at_ ct 0)
    | KernelA w => collides LMC ka w (zeros ka)
    | KernelB w => collides RMC kb w (zeros kb)
    end.
  Proof using LA LB LI.
    intros Hacc Hd. set (prT := fun c : com3 (mod_carrier XA) (mod_carrier XB) (identity_output MT) => at_ (com_vec c) 0).
    assert (Hp : forall st cs a b, In (st, cs, (a, b)) (paths t) ->
              path_ok fA fB psi_id th kt grp_a grp_b prT ka kb ca cb (at_ ct 0) st cs a b).
    { intros st cs a b Hin. destruct (Hacc _ _ _ Hin) as [D [fuel [HD [Hr Hv]]]]. pose proof Hv as Hv'.
      apply (C12_accepts_iff_identity D fuel LMC RMC ip) in Hv'; auto.
      apply (gipa_verify_iff D fuel mid mid idout fA fB psi_id th LMC RMC (identity MT) ip LA LB (identity_law MT) LI) in Hv.
      destruct Hv as [cs' [Hch [La [Lb [EA [EB _]]]]]].
      destruct Hv' as [cs'' [v [Hr' [_ [_ [Eip [_ [_ [_ Ev]]]]]]]]]. apply round_challenges_chain in Hr'; auto.
      apply round_challenges_chain in Hr; auto.
      assert (Hcl : length cs'' = length (rev st)) by (apply chain_length in Hr'; cbn [gp_steps] in Hr'; rewrite Hr'; apply rev_length).
      rewrite <- cfold1_folded in Ev by (cbn [gp_steps]; exact Hcl).
      cbn [gp_steps gp_base fst snd] in *.
      rewrite rev_involutive in *. rewrite rev_length in La, Lb.
      rewrite (chain_fun _ _ _ _ _ Hch _ Hr) in *. rewrite (chain_fun _ _ _ _ _ Hr' _ Hr) in *. unfold path_ok.
      split; [eapply chain_length; eauto|]. split; [eapply chain_nonzero; eauto|].
      rewrite (lin_ip_single _ _ a b LI) in Eip. apply Ok_inj in Eip. repeat split; auto. unfold psi_id. now rewrite Eip. }
    pose proof (identity_law (R := R) MT) as LT.
    pose proof (extract_sound fA fB psi_id th (lc_bil _ _ _ LA) (lc_bil _ _ _ LB) (li_bil _ _ LI)
                  (ic_add _ _ _ LT) (ic_scale _ _ _ LT) kt _ _ _ t ka kb ca cb (at_ ct 0)
                  (paths_sat fA fB psi_id th kt grp_a grp_b prT t ka kb ca cb (at_ ct 0) Hd Hp)) as HE.
    assert (Lk : length ka = length kb).
    { pose proof (paths_nonempty t) as Hne. destruct (paths t) as [|[[st cs] [a b]] l]; [contradiction|].
      destruct (Hp st cs a b (or_introl eq_refl)) as [_ [_ [H1 [H2 _]]]]. congruence. }
    destruct (extract t) as [a b|w|w]; cbn [ext_ok] in HE.
    - destruct HE as [L1 [L2 [E1 [E2 E3]]]]. repeat split; auto.
      + rewrite (lc_commit _ _ _ LA) by congruence. now rewrite E1.
      + rewrite (lc_commit _ _ _ LB) by congruence. now rewrite E2.
      + rewrite (li_ip _ _ LI) by congruence. now rewrite <- E3.
    - destruct HE as [L1 [Hn E1]]. now apply (kernel_collides LMC mid fA LA).
    - destruct HE as [L1 [Hn E1]]. now apply (kernel_collides RMC mid fB LB).
  Qed.
End C18.
Print Assumptions C18_special_sound_group.
Print Assumptions C18_special_sound_identity.

(** The instantiations of GIPA used in the repository's tests. *)
Theorem C18_pairing_instance R (P : pairing) (E : penv) (r1 : sampler R (pG1 P)) (r2 : sampler R (pG2 P))
    ka kb (kt : unitmod (pK P)) ca cb (v : pGT P) t :
  1 <= threads E ->
  tree_accepted (afgho_g1 P E r2) (afgho_g2 P E r1) (identity (pGT P)) (pairing_ip P E) ka kb kt (ca, cb, [v]) t ->
  distinct_challenges t ->
  match extract t with
  | Witness a b => length a = length ka /\ length b = length kb /\
      ca = pairing_sum P a ka /\ cb = pairing_sum P kb b /\ v = pairing_sum P a b
  | KernelA w => collides (afgho_g1 P E r2) ka w (zeros ka)
  | KernelB w => collides (afgho_g2 P E r1) kb w (zeros kb)
  end.
Proof.
  intros HE Hacc Hd.
  pose proof (C18_special_sound_identity (phi_g1 P) (pr_e P) (pr_e P) (afgho_g1 P E r2) (afgho_g2 P E r1) (pairing_ip P E)
                (afgho_g1_law P E HE r2) (afgho_g2_law P E HE r1) (pairing_ip_law P E HE) ka kb kt ca cb [v] t Hacc Hd) as H.
  destruct (extract t) as [a b|w|w]; auto. destruct H as [La [Lb [E1 [E2 E3]]]]. cbn [dh_commit afgho_g1 afgho_g2] in E1, E2.
  change (at_ [v] 0) with v in E3.
  destruct (C02_pairing_outcome P E a ka HE) as [[He _]|[_ He]]; [congruence|]. rewrite He in E1. apply Ok_inj in E1.
  destruct (C02_pairing_outcome P E kb b HE) as [[He' _]|[_ He']]; [congruence|]. rewrite He' in E2. apply Ok_inj in E2.
  destruct (C02_pairing_outcome P E a b HE) as [[He'' e]|[_ He'']]; [rewrite e in E3; discriminate|].
  rewrite He'' in E3. apply Ok_inj in E3. auto.
Qed.
Print Assumptions C18_pairing_instance.

Theorem C18_multiexp_instance R (P : pairing) (E : penv) (r1 : sampler R (pG1 P)) (r2 : sampler R (pG2 P))
    ka kb (kt : unitmod (pK P)) ca cb (v : pG1 P) t :
  1 <= threads E ->
  tree_accepted (afgho_g1 P E r2) (pedersen (pG1 P) r1) (identity (pG1 P)) (multiexp_ip (pG1 P)) ka kb kt (ca, cb, [v]) t ->
  distinct_challenges t ->
  match extract t with
  | Witness a b => length a = length ka /\ length b = length kb /\
      ca = pairing_sum P a ka /\ cb = msm_sum kb b /\ v = msm_sum a b
  | KernelA w => collides (afgho_g1 P E r2) ka w (zeros ka)
  | KernelB w => collides (pedersen (pG1 P) r1) kb w (zeros kb)
  end.
Proof.
  intros HE Hacc Hd.
  pose proof (C18_special_sound_identity (phi_g1 P) smul smul (afgho_g1 P E r2) (pedersen (pG1 P) r1) (multiexp_ip (pG1 P))
                (afgho_g1_law P E HE r2) (pedersen_law _ r1) (multiexp_ip_law _) ka kb kt ca cb [v] t Hacc Hd) as H.
  destruct (extract t) as [a b|w|w]; auto. destruct H as [La [Lb [E1 [E2 E3]]]]. cbn [dh_commit afgho_g1 pedersen] in E1, E2.
  change (at_ [v] 0) with v in E3.
  destruct (C02_pairing_outcome P E a ka HE) as [[He _]|[_ He]]; [congruence|]. rewrite He in E1. apply Ok_inj in E1.
  destruct (C02_multiexp_outcome _ _ kb b) as [[He' _]|[_ He']]; [now destruct He'|]. rewrite He' in E2. apply Ok_inj in E2.
  destruct (C02_multiexp_outcome _ _ a b) as [[He'' e]|[_ He'']]; [rewrite e in E3; discriminate|].
  rewrite He'' in E3. apply Ok_inj in E3. auto.
Qed.
Print Assumptions C18_multiexp_instance.

Theorem C18_scalar_instance R (K : field) (G H : module K) (E : penv) (rg : sampler R G) (rh : sampler R H)
    ka kb (kt : unitmod K) ca cb (v : K) t :
  tree_accepted (pedersen G rg) (pedersen H rh) (identity (fmod K)) (scalar_ip E) ka kb kt (ca, cb, [v]) t ->
  distinct_challenges t ->
  match extract t with
  | Witness a b => length a = length ka /\ length b = length kb /\
      ca = msm_sum ka a /\ cb = msm_sum kb b /\ v = scalar_sum a b
  | KernelA w => collides (pedersen G rg) ka w (zeros ka)
  | KernelB w => collides (pedersen H rh) kb w (zeros kb)
  end.
Proof.
  intros Hacc Hd.
  pose proof (C18_special_sound_identity smul smul fmul' (pedersen G rg) (pedersen H rh) (scalar_ip E)
                (pedersen_law _ rg) (pedersen_law _ rh) (scalar_ip_law E) ka kb kt ca cb [v] t Hacc Hd) as HH.
  destruct (extract t) as [a b|w|w]; auto. destruct HH as [La [Lb [E1 [E2 E3]]]]. cbn [dh_commit pedersen] in E1, E2.
  change (at_ ([v] : list (fmod K)) 0) with v in E3.
  destruct (C02_multiexp_outcome _ _ ka a) as [[He _]|[_ He]]; [now destruct He|]. rewrite He in E1. apply Ok_inj in E1.
  destruct (C02_multiexp_outcome _ _ kb b) as [[He' _]|[_ He']]; [now destruct He'|]. rewrite He' in E2. apply Ok_inj in E2.
  destruct (C02_scalar_outcome _ E a b) as [[He'' e]|[_ He'']]; [rewrite e in E3; discriminate|].
  rewrite He'' in E3. apply Ok_inj in E3. auto.
Qed.
Print Assumptions C18_scalar_instance.

(** ** Examples *)
(** digests with a chosen value; the challenge is its inverse *)
Definition val_digest (v : N) (b : bytes) : bytes := repeat 0%N 15 ++ [v] ++ repeat 0%N 16.
Definition chal (v : N) : ZP := finv (f_ofN v).
Notation excom := (com3 (mod_carrier ZM) (mod_carrier ZM) (identity_output ZM)).
Definition mkcom (x y z : Z) : excom := (zq x, zq y, [zq z]).

(** an honest prover rewound three times: a = (3, 1), b = (5, 9), keys (11, 12) and (21, 22) *)
Definition ex_round : excom * excom := (mkcom 11 110 5, mkcom 36 189 27).
Definition ex_leaf (v : N) : tree (excom * excom) ZP ZM ZM :=
  Leaf (fadd (f := ZP) (zq 3) (chal v)) (fadd (f := ZP) (zq 5) (fmul (f := ZP) (finv (chal v)) (zq 9))).
Definition ex_tree : tree (excom * excom) ZP ZM ZM :=
  Node ex_round (chal 1) (chal 2) (chal 3) (chal 4) (ex_leaf 1) (ex_leaf 2) (ex_leaf 3) (ex_leaf 4).
Definition ex_accepted := tree_accepted (ex_L ex_env1) (ex_R ex_env1) ex_T (pairing_ip ZPair ex_env1)
  (zl [11; 12]%Z) (zl [21; 22]%Z) tt.

Lemma val_digest16 v : digest16 (val_digest v).
Proof. intros b. cbn. lia. Qed.
Ltac accepted v :=
  exists (val_digest v), 1; split; [apply val_digest16|]; split;
    [apply round_challenges_chain; [apply val_digest16|]; econstructor; [vm_compute; reflexivity|exact (chain_nil (K := ZP) (OA := mod_carrier ZM) (OB := mod_carrier ZM) (OT := identity_output ZM) _ _ _)]
    |vm_compute; reflexivity].
Ltac four_paths := intros st cs base Hin; cbn [paths map app fst snd In] in Hin;
  destruct Hin as [Hin|[Hin|[Hin|[Hin|[]]]]]; injection Hin as <- <- <-;
  [accepted 1%N|accepted 2%N|accepted 3%N|accepted 4%N].

Example C18_example_accepted : ex_accepted (mkcom 45 303 24) ex_tree /\ distinct_challenges ex_tree.
Proof.
  split; [unfold ex_tree, ex_leaf; four_paths|]. split; [|cbn; auto].
  repeat constructor; cbn [In]; intros Hin; repeat destruct Hin as [Hin|Hin]; try contradiction; vm_compute in Hin; discriminate.
Qed.
Example C18_example_extracted :
  match extract ex_tree with
  | Witness [a1; a2] [b1; b2] => zp_eqb a1 (zq 3) && zp_eqb a2 (zq 1) && zp_eqb b1 (zq 5) && zp_eqb b2 (zq 9)
  | _ => false
  end = true.
Proof. vm_compute. reflexivity. Qed.

(** a prover that answers without knowing an opening: b = 0, and each last message solves its equation,
    (11 + 12/c) a = 1 c; four of them reveal two openings of the commitment 0 under the keys (11, 12) *)
Definition ex_leaf' (v : N) : tree (excom * excom) ZP ZM ZM :=
  Leaf (fmul (f := ZP) (chal v) (finv (f := ZP) (fadd (f := ZP) (zq 11) (fmul (f := ZP) (finv (chal v)) (zq 12))))) (zq 0).
Definition ex_tree' : tree (excom * excom) ZP ZM ZM :=
  Node (mkcom 1 0 0, mkcom 0 0 0) (chal 1) (chal 2) (chal 3) (chal 4) (ex_leaf' 1) (ex_leaf' 2) (ex_leaf' 3) (ex_leaf' 4).
Example C18_example_collision_accepted : ex_accepted (mkcom 0 0 0) ex_tree'.
Proof. unfold ex_tree', ex_leaf'. four_paths. Qed.
Example C18_example_collision :
  match extract ex_tree' with
  | KernelA [x; y] => negb (zp_eqb x (zq 0)) && negb (zp_eqb y (zq 0))
  | _ => false
  end = true.
Proof. vm_compute. reflexivity. Qed.

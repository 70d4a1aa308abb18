(** Properties C21 - C28: the structured reference string, TIPA, the commitment-key openings. *)
Require Import List Arith NArith ZArith Lia Bool Field.
Import ListNotations.
Require Import Verif.Outcome Verif.Algebra Verif.Zp Verif.Rust Verif.InnerProducts Verif.Commitments
  Verif.Gipa Verif.Poly Verif.Tipa Verif.Ssm Verif.Spec Verif.ListFacts Verif.RustFacts
  Verif.InnerProductFacts Verif.CommitFacts Verif.GipaFacts Verif.GipaComplete Verif.GipaTop Verif.SerFacts
  Verif.PolyFacts Verif.KeyFacts Verif.TipaFacts Verif.SsmFacts Verif.RootFacts Verif.PropsBase Verif.PropsGipa.

(** Every loop that draws a scalar with [from_random_bytes] ends before [fuel] iterations. *)
Definition draws_end (K : field) (D : bytes -> bytes) (fuel : nat) : Prop :=
  forall payload, exists n (v : K), n < fuel /\ f_rand (D (usize_be n ++ payload)) = Some v.

Lemma draws_end_live (K : field) D fuel : draws_end K D fuel ->
  forall p, exists c : K, rand_challenge D fuel 0 p = Ok c.
Proof.
  intros H p. destruct (rand_challenge_spec_from (K := K) D p fuel 0) as [[m [v [_ [_ [_ E]]]]]|[Hn _]]; [eauto|].
  destruct (H p) as [n [v [Hlt Hv]]]. rewrite Hn in Hv by lia. discriminate.
Qed.

(** ** C28 *)
Theorem C28_structured_scalar_power (K : field) (s : K) n :
  exists l, structured_scalar_power n s = Ok l /\ length l = Nat.max n 1 /\
    forall i, i < Nat.max n 1 -> fat l i = fpow s i.
Proof.
  rewrite structured_scalar_power_spec. eexists. split; [reflexivity|].
  rewrite map_length, seq_length. split; [reflexivity|]. intros i Hi. unfold fat.
  rewrite (nth_indep _ f0 (fpow s 0)) by (rewrite map_length, seq_length; auto).
  rewrite (map_nth (fpow s)), seq_nth by auto. reflexivity.
Qed.
Print Assumptions C28_structured_scalar_power.

Lemma at_map_seq {K : field} {M : module K} (F : nat -> M) n i : i < n -> at_ (map F (seq 0 n)) i = F i.
Proof.
  intros H. unfold at_. rewrite (nth_indep _ m0 (F 0)) by (rewrite map_length, seq_length; auto).
  rewrite (map_nth F), seq_nth by auto. reflexivity.
Qed.
Lemma list_at_ext {K : field} {M : module K} (l : list M) F n :
  length l = n -> (forall i, i < n -> at_ l i = F i) -> l = map F (seq 0 n).
Proof.
  intros Hl H. apply (nth_ext _ _ m0 m0); [rewrite map_length, seq_length; auto|].
  intros i Hi. fold (at_ l i). rewrite H by lia. symmetry. apply (at_map_seq F). lia.
Qed.

Theorem C28_structured_generators (K : field) (G : module K) (g : G) (s : K) n :
  (n = 0 /\ structured_generators_scalar_power n g s = Panic) \/
  (0 < n /\ exists l, structured_generators_scalar_power n g s = Ok l /\ length l = n /\
    forall i, i < n -> at_ l i = fpow s i *m g).
Proof.
  destruct n; [left; split; reflexivity|right]. split; [lia|].
  rewrite structured_generators_ok by lia. eexists. split; [reflexivity|].
  rewrite map_length, seq_length. split; [reflexivity|]. intros i Hi. now apply (at_map_seq (fun i => fpow s i *m g)).
Qed.
Print Assumptions C28_structured_generators.

Example C28_example :
  structured_scalar_power (K := ZP) 4 (zq 3) = Ok (zl [1; 3; 9; 27]%Z) /\
  structured_scalar_power (K := ZP) 0 (zq 3) = Ok (zl [1]%Z) /\
  structured_generators_scalar_power (K := ZP) (G := ZM) 3 (zq 5) (zq 2) = Ok (zl [5; 10; 20]%Z).
Proof. vm_compute. repeat split; reflexivity. Qed.

(** ** C21 *)
(** [s] has trapdoors alpha, beta and size n. *)
Definition srs_ok {P} (s : srs P) (alpha beta : pK P) (n : nat) : Prop :=
  length (g_alpha_powers s) = 2 * n - 1 /\ length (h_beta_powers s) = 2 * n - 1 /\
  (forall i, i < 2 * n - 1 -> at_ (g_alpha_powers s) i = fpow alpha i *m pr_g P) /\
  (forall i, i < 2 * n - 1 -> at_ (h_beta_powers s) i = fpow beta i *m pr_h P) /\
  srs_g_beta s = beta *m pr_g P /\ srs_h_alpha s = alpha *m pr_h P.

Lemma srs_ok_iff {P} (s : srs P) alpha beta n : srs_ok s alpha beta n <-> s = trap_srs alpha beta n.
Proof.
  split.
  - intros [H1 [H2 [H3 [H4 [H5 H6]]]]]. destruct s as [ga hb gb ha]. cbn in *. unfold trap_srs. f_equal; auto.
    + now apply list_at_ext.
    + now apply list_at_ext.
  - intros ->. unfold srs_ok, trap_srs. cbn [g_alpha_powers h_beta_powers srs_g_beta srs_h_alpha].
    rewrite !map_length, !seq_length. repeat split; auto; intros i Hi.
    + now apply (at_map_seq (fun i => fpow alpha i *m pr_g P)).
    + now apply (at_map_seq (fun i => fpow beta i *m pr_h P)).
Qed.

Section C21.
  Context {R : Type} {P : pairing} {MT KT : module (pK P)} {OT : carrier (pK P)}.
  Variables (IPC : dhc R MT KT OT) (rand : sampler R (pK P)).
  Add Field KfC21 : (f_theory (pK P)).

  Lemma tipa_setup_inv rng n s kt rng' :
    tipa_setup IPC rand rng n = Ok (s, kt, rng') ->
    0 < n /\ s = trap_srs (fst (rand rng)) (fst (rand (snd (rand rng)))) n.
  Proof.
    unfold tipa_setup. destruct (rand rng) as [alpha rng1]. cbn [fst snd].
    destruct (rand rng1) as [beta rng2]. cbn [fst].
    destruct (Nat.ltb_spec 0 n) as [Hn|Hn]; cbn [rassert rbind]; [|discriminate].
    rewrite !structured_generators_ok by lia. cbn [rbind]. intros H.
    apply rbind_ok in H as [[l rng3] [_ H]]. apply rbind_ok in H as [k [_ H]].
    injection H as <- _ _. split; [exact Hn|reflexivity].
  Qed.

  (** the SRS that setup returns; alpha and beta are the two scalars drawn first *)
  Theorem C21_setup_structure rng n s kt rng' :
    tipa_setup IPC rand rng n = Ok (s, kt, rng') ->
    0 < n /\ srs_ok s (fst (rand rng)) (fst (rand (snd (rand rng)))) n.
  Proof.
    intros H. apply tipa_setup_inv in H as [Hn H]. split; [exact Hn|]. now apply srs_ok_iff.
  Qed.

  Theorem C21_setup_succeeds rng n kt rng' :
    0 < n -> dh_setup IPC (snd (rand (snd (rand rng)))) 1 = Ok ([kt], rng') ->
    exists s, tipa_setup IPC rand rng n = Ok (s, kt, rng').
  Proof.
    intros Hn. unfold tipa_setup. destruct (rand rng) as [alpha rng1]. cbn [fst snd].
    destruct (rand rng1) as [beta rng2]. cbn [snd]. intros H.
    destruct (Nat.ltb_spec 0 n); [|lia]. cbn [rassert rbind].
    rewrite !structured_generators_ok by lia. cbn [rbind]. rewrite H. cbn [rbind last_opt runwrap]. eauto.
  Qed.

  Theorem C21_size_zero rng : tipa_setup IPC rand rng 0 = Panic.
  Proof. unfold tipa_setup. destruct (rand rng) as [a r1]. destruct (rand r1). reflexivity. Qed.

  Theorem C21_keys (s : srs P) alpha beta n : 0 < n -> srs_ok s alpha beta n ->
    (exists ka kb, get_commitment_keys s = (ka, kb) /\ length ka = n /\ length kb = n /\
      forall i, i < n -> at_ ka i = fpow beta (2 * i) *m pr_h P /\ at_ kb i = fpow alpha (2 * i) *m pr_g P) /\
    get_verifier_key s = Ok (mk_vsrs (pr_g P) (pr_h P) (beta *m pr_g P) (alpha *m pr_h P)).
  Proof.
    intros Hn H. apply srs_ok_iff in H. subst s. split; [|now apply trap_vkey].
    rewrite trap_keys. do 2 eexists. split; [reflexivity|]. rewrite !key_vec_length.
    split; [reflexivity|]. split; [reflexivity|]. intros i Hi. unfold key_vec. rewrite !fpow_mul. split.
    - rewrite (at_map_seq (fun i => fpow (beta *f beta *f f1) i *m pr_h P)) by auto. do 2 f_equal. cbn. ring.
    - rewrite (at_map_seq (fun i => fpow (alpha *f alpha *f f1) i *m pr_g P)) by auto. do 2 f_equal. cbn. ring.
  Qed.
End C21.
Print Assumptions C21_setup_structure.
Print Assumptions C21_setup_succeeds.
Print Assumptions C21_size_zero.
Print Assumptions C21_keys.

(** size 2, trapdoors 2 and 3 *)
Definition ex_scalars : sampler Z ZP := fun z => (zq (z mod 101), Z.succ z)%Z.
Definition ex_srs n : res (srs ZPair) := do (s, _, _) <- tipa_setup (P := ZPair) ex_T ex_scalars 2%Z n; Ok s.
Example C21_example :
  match ex_srs 2 with
  | Ok s => g_alpha_powers s = zl [1; 2; 4]%Z /\ h_beta_powers s = zl [1; 3; 9]%Z /\
            get_commitment_keys s = (zl [1; 9]%Z, zl [1; 4]%Z)
  | _ => False
  end.
Proof. vm_compute. repeat split; reflexivity. Qed.

(** ** C22, C23 *)
(** the elements r^i l_i *)
Definition shift_vec {K : field} {M : module K} (r : K) (l : list M) : list M :=
  map (fun i => fpow r i *m at_ l i) (seq 0 (length l)).

Section C22.
  Context {R : Type} {P : pairing} {MA MB MT KT : module (pK P)} {OA OB OT : carrier (pK P)}.
  Notation K := (pK P).
  Add Field KfC22 : (f_theory (pK P)).
  Variables (D : bytes -> bytes) (fuel : nat) (rand : sampler R (pK P)).
  Context {XA XB XT : module (pK P)} (dA : XA -> OA) (dB : XB -> OB) (dT : XT -> OT).
  Context (fA : pG2 P -> MA -> XA) (fB : pG1 P -> MB -> XB) (fT : KT -> MT -> XT) (th : MA -> MB -> MT).
  Variables (LMC LMC' : dhc R MA (pG2 P) OA) (RMC RMC' : dhc R MB (pG1 P) OB) (IPC IPC' : dhc R MT KT OT).
  Variables ip ip' : list MA -> list MB -> res MT.
  Hypothesis HD : digest16 D.
  Context (LA : lin_commit LMC dA fA) (LB : lin_commit RMC dB fB) (LT : ip_commit IPC dT fT)
          (LI : lin_ip ip th).
  Context (LA' : lin_commit LMC' dA fA) (LB' : lin_commit RMC' dB fB) (LT' : ip_commit IPC' dT fT)
          (LI' : lin_ip ip' th).

  Lemma shift_key n (r beta : K) (g : pG2 P) : r <> f0 ->
    shift_vec (finv r) (key_vec n beta f1 g) = key_vec n beta (finv r) g.
  Proof.
    intros Hr. unfold shift_vec. rewrite key_vec_length. unfold key_vec. apply map_ext_in. intros i Hi.
    apply in_seq in Hi. rewrite (at_map_seq (fun i => fpow (beta *f beta *f f1) i *m g)) by lia.
    rewrite <- mscale_mul. f_equal. rewrite <- fpow_mul_l. f_equal. ring.
  Qed.

  Section Shift.
    Variables (rng : R) (k : nat) (s : srs P) (kt kt0 : KT) (rng' : R) (r : K)
      (ka : list (pG2 P)) (kb : list (pG1 P)) (v : vsrs P).
    Hypothesis Hs : tipa_setup IPC rand rng (2 ^ S k) = Ok (s, kt0, rng').
    Hypothesis Hk : get_commitment_keys s = (ka, kb).
    Hypothesis Hv : get_verifier_key s = Ok v.
    Hypothesis Hr : r <> f0.

    Lemma setup_trap : exists alpha beta, s = trap_srs alpha beta (2 ^ S k) /\
      shift_vec (finv r) ka = key_vec (2 ^ S k) beta (finv r) (pr_h P) /\
      kb = key_vec (2 ^ S k) alpha f1 (pr_g P) /\ v = trap_vsrs alpha beta.
    Proof using Hs Hk Hv Hr.
      clear - Hs Hk Hv Hr. apply tipa_setup_inv in Hs as [Hn ->]. do 2 eexists. split; [reflexivity|].
      rewrite trap_keys in Hk. injection Hk as <- <-. rewrite trap_vkey in Hv by auto.
      injection Hv as <-. split; [now apply shift_key|]. split; reflexivity.
    Qed.

    Theorem C23_tipa_complete_shift a b t ca cb ct :
      length a = 2 ^ S k -> length b = 2 ^ S k ->
      honest_com LMC RMC IPC ip (shift_vec (finv r) ka) kb kt a b t ca cb ct ->
      tipa_prove_with_srs_shift LMC RMC IPC ip D fuel s (a, b) (shift_vec (finv r) ka, kb, kt) r = Loop \/
      exists proof,
        tipa_prove_with_srs_shift LMC RMC IPC ip D fuel s (a, b) (shift_vec (finv r) ka, kb, kt) r = Ok proof /\
        tipa_verify_with_srs_shift LMC' RMC' IPC' ip' D fuel v kt (ca, cb, ct) proof r = Ok true.
    Proof using All.
      intros Ha Hb H. destruct setup_trap as [alpha [beta [-> [E1 [-> ->]]]]]. rewrite E1 in *.
      apply (honest_com_inv dA dB dT fA fB fT th LMC RMC IPC ip LA LB LT LI) in H as [-> ->];
        rewrite ?key_vec_length; try congruence.
      eapply tipa_complete_outcome; eauto.
    Qed.

    Theorem C23_tipa_complete_shift_live a b t ca cb ct :
      rounds_end OA OB OT D fuel -> draws_end K D fuel ->
      length a = 2 ^ S k -> length b = 2 ^ S k ->
      honest_com LMC RMC IPC ip (shift_vec (finv r) ka) kb kt a b t ca cb ct ->
      exists proof,
        tipa_prove_with_srs_shift LMC RMC IPC ip D fuel s (a, b) (shift_vec (finv r) ka, kb, kt) r = Ok proof /\
        tipa_verify_with_srs_shift LMC' RMC' IPC' ip' D fuel v kt (ca, cb, ct) proof r = Ok true.
    Proof using All.
      intros HL1 HL2 Ha Hb H. destruct setup_trap as [alpha [beta [-> [E1 [-> ->]]]]]. rewrite E1 in *.
      apply (honest_com_inv dA dB dT fA fB fT th LMC RMC IPC ip LA LB LT LI) in H as [-> ->];
        rewrite ?key_vec_length; try congruence.
      eapply tipa_complete_live; eauto using rounds_end_live, draws_end_live.
    Qed.
  End Shift.

  (** the commitment to r^i a_i under r^-i k_i is the commitment to a_i under k_i *)
  Theorem C23_shift_commitment r ka a : r <> f0 -> length ka = length a ->
    dh_commit LMC (shift_vec (finv r) ka) (shift_vec r a) = dh_commit LMC ka a.
  Proof using LA.
    intros Hr Hl. rewrite !(lc_commit _ _ _ LA); auto.
    2:{ unfold shift_vec. now rewrite !map_length, !seq_length. }
    do 2 f_equal. rewrite !dot_big by (unfold shift_vec; rewrite ?map_length, ?seq_length; auto).
    unfold shift_vec. rewrite !map_length, !seq_length. apply big_ext. intros i Hi.
    rewrite (at_map_seq (fun i => fpow (finv r) i *m at_ ka i)) by auto.
    rewrite (at_map_seq (fun i => fpow r i *m at_ a i)) by lia.
    rewrite (bil_scale_l _ (lc_bil _ _ _ LA)), (bil_scale_r _ (lc_bil _ _ _ LA)), <- mscale_mul, <- fpow_mul_l.
    rewrite finv_l by auto. rewrite fpow_1_l. apply mscale_1.
  Qed.

  Lemma shift_vec_1 {M : module K} (l : list M) : shift_vec (finv f1) l = l.
  Proof.
    symmetry. apply list_at_ext; [reflexivity|]. intros i Hi.
    replace (finv f1 : K) with (f1 : K) by (field; apply f1_neq_f0).
    now rewrite fpow_1_l, mscale_1.
  Qed.

  Theorem C22_tipa_complete rng k s kt kt0 rng' ka kb v a b t ca cb ct :
    tipa_setup IPC rand rng (2 ^ S k) = Ok (s, kt0, rng') ->
    get_commitment_keys s = (ka, kb) -> get_verifier_key s = Ok v ->
    length a = 2 ^ S k -> length b = 2 ^ S k ->
    honest_com LMC RMC IPC ip ka kb kt a b t ca cb ct ->
    tipa_prove LMC RMC IPC ip D fuel s (a, b) (ka, kb, kt) = Loop \/
    exists proof,
      tipa_prove LMC RMC IPC ip D fuel s (a, b) (ka, kb, kt) = Ok proof /\
      tipa_verify LMC' RMC' IPC' ip' D fuel v kt (ca, cb, ct) proof = Ok true.
  Proof using All.
    intros Hs Hk Hv Ha Hb H. rewrite <- (shift_vec_1 ka) in H |- *.
    unfold tipa_prove, tipa_verify. eapply C23_tipa_complete_shift; eauto using f1_neq_f0.
  Qed.

  Theorem C22_tipa_complete_live rng k s kt kt0 rng' ka kb v a b t ca cb ct :
    rounds_end OA OB OT D fuel -> draws_end K D fuel ->
    tipa_setup IPC rand rng (2 ^ S k) = Ok (s, kt0, rng') ->
    get_commitment_keys s = (ka, kb) -> get_verifier_key s = Ok v ->
    length a = 2 ^ S k -> length b = 2 ^ S k ->
    honest_com LMC RMC IPC ip ka kb kt a b t ca cb ct ->
    exists proof,
      tipa_prove LMC RMC IPC ip D fuel s (a, b) (ka, kb, kt) = Ok proof /\
      tipa_verify LMC' RMC' IPC' ip' D fuel v kt (ca, cb, ct) proof = Ok true.
  Proof using All.
    intros HL1 HL2 Hs Hk Hv Ha Hb H. rewrite <- (shift_vec_1 ka) in H |- *.
    unfold tipa_prove, tipa_verify. eapply C23_tipa_complete_shift_live; eauto using f1_neq_f0.
  Qed.

  (** ** C27 *)
  Theorem C27_sizes_from_two_partial rng n s kt rng' ka kb a b :
    rounds_end OA OB OT D fuel -> draws_end K D fuel ->
    tipa_setup IPC rand rng n = Ok (s, kt, rng') -> (exists k, n = 2 ^ k) -> 1 < n ->
    get_commitment_keys s = (ka, kb) -> length a = n -> length b = n ->
    exists proof, tipa_prove LMC RMC IPC ip D fuel s (a, b) (ka, kb, kt) = Ok proof.
  Proof using All.
    intros HL1 HL2 Hs [[|k] ->] Hn Hk Ha Hb; [cbn in Hn; lia|].
    pose proof (proj1 (C21_setup_structure _ _ _ _ _ _ _ Hs)) as H0.
    destruct (C21_keys s _ _ _ H0 (proj2 (C21_setup_structure _ _ _ _ _ _ _ Hs))) as [[ka' [kb' [E1 [E2 [E3 _]]]]] Ev].
    rewrite Hk in E1. injection E1 as <- <-.
    edestruct (C22_tipa_complete_live rng k s kt kt rng' ka kb) as [proof [Hp _]]; eauto.
    repeat split; [apply (lc_commit _ _ _ LA); congruence | apply (lc_commit _ _ _ LB); congruence
                  | apply (li_ip _ _ LI); congruence | apply (ic_commit _ _ _ LT)].
  Qed.

  Theorem C27_size_one_refuted rng s kt rng' ka kb a b :
    tipa_setup IPC rand rng 1 = Ok (s, kt, rng') -> get_commitment_keys s = (ka, kb) ->
    tipa_prove LMC RMC IPC ip D fuel s ([a], [b]) (ka, kb, kt) = Panic.
  Proof.
    intros Hs Hk. apply tipa_setup_inv in Hs as [_ ->]. rewrite trap_keys in Hk. injection Hk as <- <-.
    unfold key_vec. cbn [seq map]. apply tipa_size1_prove. apply f1_neq_f0.
  Qed.
End C22.
Print Assumptions C22_tipa_complete.
Print Assumptions C22_tipa_complete_live.
Print Assumptions C23_tipa_complete_shift.
Print Assumptions C23_tipa_complete_shift_live.
Print Assumptions C23_shift_commitment.
Print Assumptions C27_sizes_from_two_partial.
Print Assumptions C27_size_one_refuted.

(** The pairing instantiation, commitments written out. *)
Theorem C22_pairing_instance R (P : pairing) (E E' : penv) (r1 : sampler R (pG1 P)) (r2 : sampler R (pG2 P))
    (rand : sampler R (pK P)) D fuel rng k s kt rng' ka kb v (a : list (pG1 P)) (b : list (pG2 P)) :
  1 <= threads E -> 1 <= threads E' -> digest16 D -> draws_end (pK P) D fuel ->
  rounds_end (mod_carrier (pGT P)) (mod_carrier (pGT P)) (identity_output (pGT P)) D fuel ->
  tipa_setup (identity (pGT P)) rand rng (2 ^ S k) = Ok (s, kt, rng') ->
  get_commitment_keys s = (ka, kb) -> get_verifier_key s = Ok v ->
  length a = 2 ^ S k -> length b = 2 ^ S k ->
  let com := (pairing_sum P a ka, pairing_sum P kb b, [pairing_sum P a b])
             : com3 (mod_carrier (pGT P)) (mod_carrier (pGT P)) (identity_output (pGT P)) in
  exists proof,
    tipa_prove (afgho_g1 P E r2) (afgho_g2 P E r1) (identity (pGT P)) (pairing_ip P E) D fuel
      s (a, b) (ka, kb, kt) = Ok proof /\
    tipa_verify (afgho_g1 P E' r2) (afgho_g2 P E' r1) (identity (pGT P)) (pairing_ip P E') D fuel
      v kt com proof = Ok true.
Proof.
  intros HE HE' HD HL2 HL Hs Hk Hv Ha Hb com.
  destruct (C21_setup_structure _ _ _ _ _ _ _ Hs) as [H0 Hst].
  destruct (C21_keys s _ _ _ H0 Hst) as [[ka' [kb' [E1 [E2 [E3 _]]]]] _].
  rewrite Hk in E1. injection E1 as <- <-.
  refine (C22_tipa_complete_live D fuel rand mid mid idout (phi_g1 P) (pr_e P) psi_id (pr_e P)
           (afgho_g1 P E r2) (afgho_g1 P E' r2) (afgho_g2 P E r1) (afgho_g2 P E' r1)
           (identity (pGT P)) (identity (pGT P)) (pairing_ip P E) (pairing_ip P E') HD
           (afgho_g1_law P E HE r2) (afgho_g2_law P E HE r1) (identity_law _) (pairing_ip_law P E HE)
           (afgho_g1_law P E' HE' r2) (afgho_g2_law P E' HE' r1) (identity_law _) (pairing_ip_law P E' HE')
           rng k s kt kt rng' ka kb v a b (pairing_sum P a b) _ _ _ HL HL2 Hs Hk Hv Ha Hb _).
  repeat split; cbn [dh_commit afgho_g1 afgho_g2 identity]; apply C01_pairing_inner_product; congruence.
Qed.
Print Assumptions C22_pairing_instance.

Theorem C22_multiexp_instance R (P : pairing) (E E' : penv) (r1 : sampler R (pG1 P)) (r2 : sampler R (pG2 P))
    (rand : sampler R (pK P)) D fuel rng k s kt rng' ka kb v (a : list (pG1 P)) (b : list (pK P)) :
  1 <= threads E -> 1 <= threads E' -> digest16 D -> draws_end (pK P) D fuel ->
  rounds_end (mod_carrier (pGT P)) (mod_carrier (pG1 P)) (identity_output (pG1 P)) D fuel ->
  tipa_setup (identity (pG1 P)) rand rng (2 ^ S k) = Ok (s, kt, rng') ->
  get_commitment_keys s = (ka, kb) -> get_verifier_key s = Ok v ->
  length a = 2 ^ S k -> length b = 2 ^ S k ->
  let com := (pairing_sum P a ka, msm_sum kb b, [msm_sum a b])
             : com3 (mod_carrier (pGT P)) (mod_carrier (pG1 P)) (identity_output (pG1 P)) in
  exists proof,
    tipa_prove (afgho_g1 P E r2) (pedersen (pG1 P) r1) (identity (pG1 P)) (multiexp_ip (pG1 P)) D fuel
      s (a, b) (ka, kb, kt) = Ok proof /\
    tipa_verify (afgho_g1 P E' r2) (pedersen (pG1 P) r1) (identity (pG1 P)) (multiexp_ip (pG1 P)) D fuel
      v kt com proof = Ok true.
Proof.
  intros HE HE' HD HL2 HL Hs Hk Hv Ha Hb com.
  destruct (C21_setup_structure _ _ _ _ _ _ _ Hs) as [H0 Hst].
  destruct (C21_keys s _ _ _ H0 Hst) as [[ka' [kb' [E1 [E2 [E3 _]]]]] _].
  rewrite Hk in E1. injection E1 as <- <-.
  refine (C22_tipa_complete_live D fuel rand mid mid idout (phi_g1 P) smul psi_id smul
           (afgho_g1 P E r2) (afgho_g1 P E' r2) (pedersen (pG1 P) r1) (pedersen (pG1 P) r1)
           (identity (pG1 P)) (identity (pG1 P)) (multiexp_ip (pG1 P)) (multiexp_ip (pG1 P)) HD
           (afgho_g1_law P E HE r2) (pedersen_law _ r1) (identity_law _) (multiexp_ip_law _)
           (afgho_g1_law P E' HE' r2) (pedersen_law _ r1) (identity_law _) (multiexp_ip_law _)
           rng k s kt kt rng' ka kb v a (b : list (fmod (pK P))) (msm_sum a b) _ _ _ HL HL2 Hs Hk Hv Ha Hb _).
  repeat split; cbn [dh_commit afgho_g1 pedersen identity].
  - apply C01_pairing_inner_product; congruence.
  - destruct (C02_multiexp_outcome _ _ kb b) as [[H _]|[_ H]]; [congruence|exact H].
  - destruct (C02_multiexp_outcome _ _ a b) as [[H _]|[_ H]]; [congruence|exact H].
Qed.
Print Assumptions C22_multiexp_instance.

Theorem C22_scalar_instance R (P : pairing) (E E' : penv) (r1 : sampler R (pG1 P)) (r2 : sampler R (pG2 P))
    (rand : sampler R (pK P)) D fuel rng k s kt rng' ka kb v (a b : list (pK P)) :
  digest16 D -> draws_end (pK P) D fuel ->
  rounds_end (mod_carrier (pG2 P)) (mod_carrier (pG1 P)) (identity_output (fmod (pK P))) D fuel ->
  tipa_setup (identity (fmod (pK P))) rand rng (2 ^ S k) = Ok (s, kt, rng') ->
  get_commitment_keys s = (ka, kb) -> get_verifier_key s = Ok v ->
  length a = 2 ^ S k -> length b = 2 ^ S k ->
  let com := (msm_sum ka a, msm_sum kb b, [scalar_sum a b])
             : com3 (mod_carrier (pG2 P)) (mod_carrier (pG1 P)) (identity_output (fmod (pK P))) in
  exists proof,
    tipa_prove (pedersen (pG2 P) r2) (pedersen (pG1 P) r1) (identity (fmod (pK P))) (scalar_ip E) D fuel
      s (a, b) (ka, kb, kt) = Ok proof /\
    tipa_verify (pedersen (pG2 P) r2) (pedersen (pG1 P) r1) (identity (fmod (pK P))) (scalar_ip E') D fuel
      v kt com proof = Ok true.
Proof.
  intros HD HL2 HL Hs Hk Hv Ha Hb com.
  destruct (C21_setup_structure _ _ _ _ _ _ _ Hs) as [H0 Hst].
  destruct (C21_keys s _ _ _ H0 Hst) as [[ka' [kb' [E1 [E2 [E3 _]]]]] _].
  rewrite Hk in E1. injection E1 as <- <-.
  refine (C22_tipa_complete_live D fuel rand mid mid idout smul smul psi_id fmul'
           (pedersen (pG2 P) r2) (pedersen (pG2 P) r2) (pedersen (pG1 P) r1) (pedersen (pG1 P) r1)
           (identity (fmod (pK P))) (identity (fmod (pK P))) (scalar_ip E) (scalar_ip E') HD
           (pedersen_law _ r2) (pedersen_law _ r1) (identity_law _) (scalar_ip_law E)
           (pedersen_law _ r2) (pedersen_law _ r1) (identity_law _) (scalar_ip_law E')
           rng k s kt kt rng' ka kb v (a : list (fmod (pK P))) (b : list (fmod (pK P))) (scalar_sum a b)
           _ _ _ HL HL2 Hs Hk Hv Ha Hb _).
  repeat split; cbn [dh_commit pedersen identity].
  - destruct (C02_multiexp_outcome _ _ ka a) as [[He _]|[_ He]]; [congruence|exact He].
  - destruct (C02_multiexp_outcome _ _ kb b) as [[He _]|[_ He]]; [congruence|exact He].
  - destruct (C02_scalar_outcome _ E a b) as [[He _]|[_ He]]; [congruence|exact He].
Qed.
Print Assumptions C22_scalar_instance.

(** A run: size 4, toy hash. *)
Definition ex_tprove s v k r := tipa_prove_with_srs_shift (P := ZPair) (ex_L ex_env) (ex_R ex_env) ex_T
  (pairing_ip ZPair ex_env) toy_digest 9 s v k r.
Definition ex_tverify v kt c p r := tipa_verify_with_srs_shift (P := ZPair) (ex_L ex_env1) (ex_R ex_env1) ex_T
  (pairing_ip ZPair ex_env1) toy_digest 9 v kt c p r.
Definition ex_tcom ka kb a : com3 (mod_carrier ZM) (mod_carrier ZM) (identity_output ZM) :=
  (pairing_sum ZPair a ka, pairing_sum ZPair kb ex_b, [pairing_sum ZPair a ex_b]).

Example C22_example :
  (do s <- ex_srs 4; do v <- get_verifier_key s;
   let '(ka, kb) := get_commitment_keys s in
   do p <- ex_tprove s (ex_a, ex_b) (ka, kb, tt) f1;
   ex_tverify v tt (ex_tcom ka kb ex_a) p f1) = Ok true.
Proof. vm_compute. reflexivity. Qed.

(** shift by r = 7; a wrong shift in the verifier or an unshifted key in the prover are not accepted *)
Definition ex_shift_run (r r' : zp) : res bool :=
  do s <- ex_srs 4; do v <- get_verifier_key s;
  let '(ka, kb) := get_commitment_keys s in
  let ka' := shift_vec (K := ZP) (finv (f := ZP) r) ka in
  let a' := shift_vec (K := ZP) r ex_a in
  do p <- ex_tprove s (a', ex_b) (ka', kb, tt) r;
  ex_tverify v tt (pairing_sum ZPair ex_a ka, pairing_sum ZPair kb ex_b, [pairing_sum ZPair a' ex_b]) p r'.
Example C23_example :
  ex_shift_run (zq 7) (zq 7) = Ok true /\ ex_shift_run (zq 7) (zq 8) = Ok false /\ ex_shift_run (zq 7) (zq 0) = Panic.
Proof. vm_compute. repeat split; reflexivity. Qed.

Example C27_example :
  outcome (do s <- ex_srs 1; let '(ka, kb) := get_commitment_keys s in
   ex_tprove s (zl [3]%Z, zl [4]%Z) (ka, kb, tt) f1) = Panic /\ outcome (ex_srs 1) = Ok tt.
Proof. vm_compute. split; reflexivity. Qed.

Definition even_digest (b : bytes) : bytes := repeat 1%N 32.
Example ends_example : digest16 even_digest /\ draws_end ZP even_digest 1 /\
  rounds_end (mod_carrier ZM) (mod_carrier ZM) (identity_output ZM) even_digest 1.
Proof.
  split; [intros b; cbn; lia|]. split.
  - intros p. exists 0, (zp_of (fold_left (fun acc y => (256 * acc + Z.of_N y) mod zp_p) (repeat 1%N 32) 0)%Z).
    split; [lia|]. vm_compute. reflexivity.
  - intros prev c1 c2. exists 0, (f_ofN (f := ZP) (from_be_bytes (repeat 1%N 16))). split; [lia|]. vm_compute. reflexivity.
Qed.

(** ** C24 *)
(** f(z) = prod_j (1 + t_j (z^2 r)^(2^j)), the key polynomial of a transcript *)
Definition key_poly {K : field} (t : list K) (r z : K) : K :=
  fprod (length t) (fun j => f1 +f fat t j *f fpow (z *f z *f r) (2 ^ j)).

Section C24.
  Context {K : field}.
  Add Field KfC24 : (f_theory K).

  Lemma fprod_S_l n (F : nat -> K) : fprod (S n) F = F 0 *f fprod n (fun j => F (S j)).
  Proof. induction n; cbn [fprod] in *; [ring|]. rewrite IHn. ring. Qed.
  Lemma fprod_ext n (F G : nat -> K) : (forall j, j < n -> F j = G j) -> fprod n F = fprod n G.
  Proof. induction n; cbn; auto. intros H. rewrite IHn, H; auto. Qed.

  Lemma prod_terms (t : list K) : forall y,
    prod (product_form_terms t y) = fprod (length t) (fun j => f1 +f fat t j *f fpow y (2 ^ j)).
  Proof.
    induction t as [|x t IH]; intros y; [reflexivity|].
    cbn [product_form_terms prod fold_right length]. rewrite fprod_S_l.
    change (fold_right fmul f1 (product_form_terms t (y *f y))) with (prod (product_form_terms t (y *f y))).
    rewrite IH. unfold fat at 2. cbn [nth]. f_equal; [cbn; ring|].
    apply fprod_ext. intros j _. change (fat (x :: t) (S j)) with (fat t j). do 2 f_equal.
    change (2 ^ S j) with (2 * 2 ^ j). rewrite fpow_mul. f_equal. cbn. ring.
  Qed.

  Lemma product_form_spec (t : list K) z r : poly_eval_product_form t z r = key_poly t r z.
  Proof.
    unfold poly_eval_product_form, key_poly. rewrite fold_left_prod, prod_terms. ring.
  Qed.

  Lemma shifted_fat (t : list K) : forall p j, fat (shifted t p) j = fat t j *f fpow p (2 ^ j).
  Proof.
    induction t as [|x t IH]; intros p j; [unfold fat; destruct j; cbn; ring|].
    destruct j; unfold fat in *; cbn [shifted nth]; [cbn; ring|]. rewrite IH.
    f_equal. change (2 ^ S j) with (2 * 2 ^ j). rewrite fpow_mul. f_equal. cbn. ring.
  Qed.

  (** coefficient of X^(2i): the product over the bits j of i of t_j r^(2^j) *)
  Theorem C24_coefficients (t : list K) r :
    exists l, poly_coefficients_from_transcript t r = Ok l /\ length l = 2 ^ (length t + 1) - 1 /\
      (forall i, fat l (2 * i + 1) = f0) /\
      (forall i, i < 2 ^ length t -> fat l (2 * i) =
         fprod (length t) (fun j => if Nat.testbit i j then fat t j *f fpow r (2 ^ j) else f1)) /\
      (forall z, poly_at l z = poly_eval_product_form t z r) /\
      (forall z, poly_at l z = key_poly t r z).
  Proof.
    assert (HL : length (subs (shifted t r)) = 2 ^ length t) by now rewrite subs_length, shifted_length.
    pose proof (pow2_pos (length t)) as Hp.
    assert (Hz : forall z, poly_at (interleave (subs (shifted t r)) (repeat f0 (2 ^ length t - 1))) z
                   = poly_eval_product_form t z r).
    { intros z. rewrite <- ev_poly_at. eapply key_coefficients_ev. apply key_coefficients_ok. }
    eexists. split; [apply key_coefficients_ok|]. split; [|split; [|split; [|split]]].
    - rewrite interleave_length, HL, repeat_length, Nat.pow_add_r. cbn. lia.
    - intros i. unfold fat. destruct (Nat.lt_ge_cases i (2 ^ length t - 1)) as [Hi|Hi].
      + rewrite interleave_odd by (rewrite repeat_length, ?HL; lia). apply nth_repeat.
      + apply nth_overflow. rewrite interleave_length, HL, repeat_length. lia.
    - intros i Hi. unfold fat at 1. rewrite interleave_even by (rewrite ?repeat_length, ?HL; lia).
      fold (fat (subs (shifted t r)) i). rewrite subs_nth by (rewrite shifted_length; auto).
      unfold subset_prod. rewrite shifted_length. apply fprod_ext. intros j _.
      destruct (Nat.testbit i j); auto. apply shifted_fat.
    - exact Hz.
    - intros z. rewrite Hz. apply product_form_spec.
  Qed.
End C24.
Print Assumptions C24_coefficients.

Example C24_example :
  poly_coefficients_from_transcript (K := ZP) [zq 2; zq 3] (zq 5)
    = Ok (zl [1; 0; 10; 0; 75; 0; 750]%Z) /\ key_poly (K := ZP) [zq 2; zq 3] (zq 5) (zq 1) = zq 836.
Proof. vm_compute. split; reflexivity. Qed.

(** ** C25 *)
Section C25.
  Context {P : pairing}.
  Notation K := (pK P).
  Add Field KfC25 : (f_theory (pK P)).
  Variables alpha beta : pK P.
  Let v : vsrs P := mk_vsrs (pr_g P) (pr_h P) (beta *m pr_g P) (alpha *m pr_h P).

  Theorem C25_g2_check ck opening (t : list K) r z :
    verify_ck_g2_kzg_opening v ck opening t r z = Ok true <->
    ck -m key_poly t r z *m pr_h P = (beta -f z) *m opening.
  Proof. rewrite <- product_form_spec. apply verify_g2_iff. Qed.

  Theorem C25_g1_check ck opening (t : list K) r z :
    verify_ck_g1_kzg_opening v ck opening t r z = Ok true <->
    ck -m key_poly t r z *m pr_g P = (alpha -f z) *m opening.
  Proof. rewrite <- product_form_spec. apply verify_g1_iff. Qed.

  (** the folded key sum_i (prod of the t_j, j bit of i) k_i, with k_i the shifted SRS key *)
  Definition folded_srs_key {G : module K} (t : list K) (s r : K) (g : G) : G :=
    big (2 ^ length t) (fun i => subset_prod t i *m (fpow s (2 * i) *f fpow r i) *m g).

  Lemma folded_srs_key_eval {G : module K} (t : list K) (s r : K) (g : G) :
    folded_srs_key t s r g = poly_eval_product_form t s r *m g.
  Proof.
    rewrite <- dot_key_vec, dot_subs by now rewrite key_vec_length. rewrite key_vec_length.
    unfold folded_srs_key. apply big_ext. intros i Hi. unfold key_vec.
    rewrite (at_map_seq (fun i => fpow (s *f s *f r) i *m g)) by auto. f_equal. f_equal.
    rewrite fpow_mul_l, fpow_mul. f_equal. f_equal. cbn. ring.
  Qed.

  Theorem C25_openings_accepted (t : list K) r z : Forall (fun x => x <> f0) t -> r <> f0 ->
    let n := 2 * 2 ^ length t - 1 in
    (exists o, prove_ck_kzg_opening (map (fun i => fpow beta i *m pr_h P) (seq 0 n)) t r z = Ok o /\
      verify_ck_g2_kzg_opening v (folded_srs_key t beta r (pr_h P)) o t r z = Ok true) /\
    (exists o, prove_ck_kzg_opening (map (fun i => fpow alpha i *m pr_g P) (seq 0 n)) t r z = Ok o /\
      verify_ck_g1_kzg_opening v (folded_srs_key t alpha r (pr_g P)) o t r z = Ok true).
  Proof.
    intros Ht Hr n. rewrite !folded_srs_key_eval. split.
    - apply opening_g2_complete; auto.
    - apply opening_g1_complete; auto.
  Qed.

  (** ** C26 *)
  (** p(X) - y - (X - z) q(X) by coefficients *)
  Definition check_poly (p q : list K) (z y : K) : list K :=
    map (fun i => (fat p i -f match i with 0 => y | S _ => f0 end) -f
                  (match i with 0 => f0 | S j => fat q j end -f z *f fat q i))
        (seq 0 (S (Nat.max (length p) (length q)))).

  Lemma poly_at_extend (l : list K) x n : length l <= n ->
    poly_at l x = fbig n (fun i => fat l i *f fpow x i).
  Proof.
    intros H. replace n with (length l + (n - length l)) by lia. rewrite fbig_split.
    rewrite (fbig_ext (n - length l) _ (fun _ => f0)).
    - rewrite fbig_0. unfold poly_at. ring.
    - intros i _. unfold fat. rewrite nth_overflow by lia. ring.
  Qed.

  Lemma check_poly_at p q z y x :
    poly_at (check_poly p q z y) x = (poly_at p x -f y) -f (x -f z) *f poly_at q x.
  Proof.
    set (m := Nat.max (length p) (length q)).
    assert (HL : length (check_poly p q z y) = S m) by (unfold check_poly; now rewrite map_length, seq_length).
    unfold poly_at at 1. rewrite HL.
    rewrite (fbig_ext (S m) _ (fun i => (fat p i *f fpow x i) +f
      (fopp f1 *f (match i with 0 => y | S _ => f0 end *f fpow x i) +f
      (fopp f1 *f (match i with 0 => f0 | S j => fat q j end *f fpow x i) +f
       z *f (fat q i *f fpow x i))))).
    2:{ intros i Hi. unfold fat at 1. unfold check_poly. fold m.
        rewrite (nth_indep _ f0 ((fun i => (fat p i -f match i with 0 => y | S _ => f0 end) -f
                  (match i with 0 => f0 | S j => fat q j end -f z *f fat q i)) 0))
          by (rewrite map_length, seq_length; auto).
        rewrite (map_nth (fun i => (fat p i -f match i with 0 => y | S _ => f0 end) -f
                  (match i with 0 => f0 | S j => fat q j end -f z *f fat q i))), seq_nth by auto.
        cbn [Nat.add]. destruct i; ring. }
    rewrite !fbig_add, !fbig_scale.
    rewrite <- (poly_at_extend p x (S m)) by (unfold m; lia).
    rewrite <- (poly_at_extend q x (S m)) by (unfold m; lia).
    rewrite !fbig_S_l. rewrite (fbig_ext m (fun i => f0 *f fpow x (S i)) (fun _ => f0)) by (intros; ring).
    rewrite fbig_0. cbn [fpow].
    rewrite (fbig_ext m (fun i => fat q i *f (x *f fpow x i)) (fun i => x *f (fat q i *f fpow x i))) by (intros; ring).
    rewrite fbig_scale, <- (poly_at_extend q x m) by (unfold m; lia). ring.
  Qed.

  Lemma poly_at_zero (l : list K) x : (forall c, In c l -> c = f0) -> poly_at l x = f0.
  Proof.
    intros H. unfold poly_at. rewrite (fbig_ext _ _ (fun _ => f0)).
    - apply fbig_0.
    - intros i Hi. unfold fat. rewrite (H (nth i l f0)) by now apply nth_In. ring.
  Qed.

  Lemma check_poly_nonzero p q z y : poly_at p z <> y -> exists c, In c (check_poly p q z y) /\ c <> f0.
  Proof.
    intros E. destruct (existsb (fun c => negb (feqb c f0)) (check_poly p q z y)) eqn:Ex.
    - apply existsb_exists in Ex as [c [Hc Hn]]. exists c. split; auto. intros ->.
      rewrite (proj2 (feqb_spec K f0 f0)) in Hn by auto. discriminate.
    - exfalso. apply E. apply fsub_eq0.
      transitivity (poly_at (check_poly p q z y) z); [rewrite check_poly_at; ring|].
      apply poly_at_zero. intros c Hc. destruct (f_eq_dec _ c f0) as [|Hn]; auto.
      assert (Hb : existsb (fun c => negb (feqb c f0)) (check_poly p q z y) = true).
      { apply existsb_exists. exists c. split; auto. apply negb_true_iff.
        destruct (feqb c f0) eqn:Ef; auto. apply feqb_spec in Ef. contradiction. }
      congruence.
  Qed.

  Lemma check_poly_root {G : module K} (g : G) p q z y x : g <> m0 ->
    poly_at p x *m g -m y *m g = (x -f z) *m poly_at q x *m g -> poly_at (check_poly p q z y) x = f0.
  Proof.
    intros Hg H. rewrite check_poly_at. rewrite scale_sub, <- mscale_mul in H.
    assert (H' : ((poly_at p x -f y) -f (x -f z) *f poly_at q x) *m g = m0).
    { rewrite <- scale_sub, H. apply msub_eq0. reflexivity. }
    apply mscale_integral in H' as [H'|H']; [exact H'|contradiction].
  Qed.

  (** p(z) = f(z), or an explicit non-zero polynomial vanishes at the trapdoor *)
  Theorem C26_wrong_key_g2 (p q t : list K) r z :
    verify_ck_g2_kzg_opening v (poly_at p beta *m pr_h P) (poly_at q beta *m pr_h P) t r z = Ok true ->
    pr_h P <> m0 ->
    poly_at p z = key_poly t r z \/
    (let u := check_poly p q z (key_poly t r z) in
     (forall x, poly_at u x = (poly_at p x -f key_poly t r z) -f (x -f z) *f poly_at q x) /\
     (exists c, In c u /\ c <> f0) /\ poly_at u beta = f0).
  Proof.
    intros H Hh. apply C25_g2_check in H.
    destruct (f_eq_dec _ (poly_at p z) (key_poly t r z)) as [E|E]; [now left|right]. cbn zeta.
    split; [intros; apply check_poly_at|]. split; [now apply check_poly_nonzero|].
    eapply check_poly_root; eauto.
  Qed.

  Theorem C26_wrong_key_g1 (p q t : list K) r z :
    verify_ck_g1_kzg_opening v (poly_at p alpha *m pr_g P) (poly_at q alpha *m pr_g P) t r z = Ok true ->
    pr_g P <> m0 ->
    poly_at p z = key_poly t r z \/
    (let u := check_poly p q z (key_poly t r z) in
     (forall x, poly_at u x = (poly_at p x -f key_poly t r z) -f (x -f z) *f poly_at q x) /\
     (exists c, In c u /\ c <> f0) /\ poly_at u alpha = f0).
  Proof.
    intros H Hh. apply C25_g1_check in H.
    destruct (f_eq_dec _ (poly_at p z) (key_poly t r z)) as [E|E]; [now left|right]. cbn zeta.
    split; [intros; apply check_poly_at|]. split; [now apply check_poly_nonzero|].
    eapply check_poly_root; eauto.
  Qed.
End C25.
Print Assumptions C25_g2_check.
Print Assumptions C25_g1_check.
Print Assumptions C25_openings_accepted.
Print Assumptions C26_wrong_key_g2.
Print Assumptions C26_wrong_key_g1.

(** challenges 2 and 3, shift 5, point 6, beta = 4, alpha = 11: the opening is accepted for the folded key and for no other of these *)
Definition ex25_v := mk_vsrs (P := ZPair) (zq 1) (zq 1) (zq 4) (zq 11).
Definition ex25_g2 (add : Z) (t : list zp) (z : zp) : res bool :=
  rbind (prove_ck_kzg_opening (K := ZP) (G := ZM) (map (fun i => fpow (K := ZP) (zq 4) i *m (zq 1 : ZM)) (seq 0 7)) [zq 2; zq 3] (zq 5) (zq 6)) (fun o =>
    verify_ck_g2_kzg_opening ex25_v (folded_srs_key (P := ZPair) (G := ZM) [zq 2; zq 3] (zq 4) (zq 5) (zq 1) +m (zq add : ZM)) o t (zq 5) z).
Definition ex25_g1 (add : Z) (t : list zp) (z : zp) : res bool :=
  rbind (prove_ck_kzg_opening (K := ZP) (G := ZM) (map (fun i => fpow (K := ZP) (zq 11) i *m (zq 1 : ZM)) (seq 0 7)) [zq 2; zq 3] (zq 5) (zq 6)) (fun o =>
    verify_ck_g1_kzg_opening ex25_v (folded_srs_key (P := ZPair) (G := ZM) [zq 2; zq 3] (zq 11) (zq 5) (zq 1) +m (zq add : ZM)) o t (zq 5) z).
Example C25_example :
  (2 * 2 ^ length [zq 2; zq 3] - 1 = 7)%nat /\ Forall (fun x : ZP => x <> f0) [zq 2; zq 3] /\ ((zq 5 : ZP) <> f0) /\
  map (fun f => f 0%Z [zq 2; zq 3] (zq 6)) [ex25_g2; ex25_g1] = [Ok true; Ok true] /\
  map (fun f => f 1%Z [zq 2; zq 3] (zq 6)) [ex25_g2; ex25_g1] = [Ok false; Ok false] /\
  map (fun f => f 0%Z [zq 3; zq 2] (zq 6)) [ex25_g2; ex25_g1] = [Ok false; Ok false] /\
  map (fun f => f 0%Z [zq 2; zq 3] (zq 7)) [ex25_g2; ex25_g1] = [Ok false; Ok false].
Proof.
  split; [reflexivity|]. split; [repeat constructor; intros H; discriminate (f_equal (fun x : zp => zp_eqb x (zq 0)) H)|].
  split; [intros H; discriminate (f_equal (fun x : zp => zp_eqb x (zq 0)) H)|]. vm_compute. repeat split; reflexivity.
Qed.

Lemma poly_roots_bound {K : field} (xs l : list K) : NoDup xs -> (exists c, In c l /\ c <> f0) ->
  (forall x, In x xs -> poly_at l x = f0) -> length xs <= length l - 1.
Proof.
  intros Hnd Hc Hr. apply (roots_bound (M := fmod K) xs l Hnd Hc). intros x Hx.
  rewrite mev_ev, ev_poly_at. now apply Hr.
Qed.

(** For fixed p, q a wrong key passes for few trapdoors ... *)
Theorem C26_few_trapdoors (P : pairing) (p q t : list (pK P)) r z alpha (betas : list (pK P)) :
  pr_h P <> m0 -> NoDup betas -> poly_at p z <> key_poly t r z ->
  (forall beta, In beta betas ->
    verify_ck_g2_kzg_opening (mk_vsrs (pr_g P) (pr_h P) (beta *m pr_g P) (alpha *m pr_h P))
      (poly_at p beta *m pr_h P) (poly_at q beta *m pr_h P) t r z = Ok true) ->
  length betas <= Nat.max (length p) (length q).
Proof.
  intros Hh Hnd Hne H.
  pose proof (poly_roots_bound betas (check_poly p q z (key_poly t r z)) Hnd (check_poly_nonzero p q z _ Hne)) as Hb.
  unfold check_poly in Hb at 2. rewrite map_length, seq_length in Hb.
  cut (length betas <= S (Nat.max (length p) (length q)) - 1); [lia|]. apply Hb.
  intros beta Hbeta. specialize (H beta Hbeta). apply C25_g2_check in H. eapply check_poly_root; eauto.
Qed.
Print Assumptions C26_few_trapdoors.

(** ... and a key polynomial p that differs from f agrees with it at few challenge points z. *)
Section C26.
  Context {K : field}.
  Add Field KfC26 : (f_theory K).
Theorem C26_few_points (p t : list K) (r : K) (zs : list K) :
  NoDup zs -> (exists z, poly_at p z <> key_poly t r z) ->
  (forall z, In z zs -> poly_at p z = key_poly t r z) ->
  length zs <= Nat.max (length p) (2 ^ (length t + 1) - 1) - 1.
Proof.
  intros Hnd [z0 Hz0] H. destruct (C24_coefficients t r) as [l [_ [Hl [_ [_ [_ Hf]]]]]].
  set (n := Nat.max (length p) (length l)).
  set (d := map (fun i => fat p i -f fat l i) (seq 0 n)).
  assert (Hd : forall x, poly_at d x = poly_at p x -f poly_at l x).
  { intros x. rewrite <- !ev_poly_at.
    assert (E : d = zipw fsub (resize n f0 p) (resize n f0 l)).
    { apply (nth_ext _ _ f0 f0).
      - unfold d. now rewrite map_length, seq_length, zipw_length, !resize_length, Nat.min_id.
      - intros i Hi. unfold d in *. rewrite map_length, seq_length in Hi.
        rewrite (zipw_nth fsub _ _ i f0 f0) by (rewrite resize_length; auto).
        rewrite !resize_nth by auto.
        rewrite (nth_indep _ f0 ((fun i => fat p i -f fat l i) 0)) by (rewrite map_length, seq_length; auto).
        rewrite (map_nth (fun i => fat p i -f fat l i)), seq_nth by auto. reflexivity. }
    rewrite E, ev_zipw_sub by now rewrite !resize_length. rewrite !ev_resize by (unfold n; lia). reflexivity. }
  pose proof (poly_roots_bound zs d Hnd) as Hb. unfold d at 3 in Hb. rewrite map_length, seq_length in Hb.
  unfold n in Hb at 1. rewrite Hl in Hb. apply Hb.
  - destruct (existsb (fun c => negb (feqb c f0)) d) eqn:Ex.
    + apply existsb_exists in Ex as [c [Hc Hn]]. exists c. split; auto. intros ->.
      rewrite (proj2 (feqb_spec K f0 f0)) in Hn by auto. discriminate.
    + exfalso. apply Hz0. rewrite <- Hf. apply fsub_eq0. rewrite <- Hd.
      unfold poly_at. rewrite (fbig_ext _ _ (fun _ => f0)); [apply fbig_0|].
      intros i Hi. unfold fat. destruct (f_eq_dec _ (nth i d f0) f0) as [->|Hn]; [ring|].
      assert (existsb (fun c => negb (feqb c f0)) d = true); [|congruence].
      apply existsb_exists. exists (nth i d f0). split; [now apply nth_In|]. apply negb_true_iff.
      destruct (feqb (nth i d f0) f0) eqn:Ef; auto. apply feqb_spec in Ef. contradiction.
  - intros z Hz. rewrite Hd, Hf, H by auto. ring.
Qed.
End C26.
Print Assumptions C26_few_points.

(** A wrong key that passes: f(X) = 1 + 2 X^2, p(X) = X, z = 5, f(5) = 51; with beta = 7, q must be
    (7 - 51) / 2 = -22.  For beta = 8 it is caught. *)
Definition ex_check beta := verify_ck_g2_kzg_opening (P := ZPair)
  (mk_vsrs (P := ZPair) (zq 1) (zq 1) (zq beta) (zq 2)) (zq beta) (zq (-22)) [zq 2] (zq 1) (zq 5).
Example C26_example : ex_check 7 = Ok true /\ ex_check 8 = Ok false /\
  check_poly (P := ZPair) [zq 0; zq 1] [zq (-22)] (zq 5) (zq 51) = zl [41; 23; 0]%Z /\
  poly_at (K := ZP) [zq 41; zq 23; zq 0] (zq 7) = zq 0.
Proof. vm_compute. repeat split; reflexivity. Qed.

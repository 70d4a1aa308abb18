(** Properties C09 - C17, C19, C20: the generalised inner product argument. *)
Require Import List Arith NArith ZArith Lia Bool Field.
Import ListNotations.
Require Import Verif.Outcome Verif.Algebra Verif.Zp Verif.Rust Verif.InnerProducts Verif.Commitments
  Verif.Gipa Verif.Tipa Verif.Spec Verif.ListFacts Verif.RustFacts Verif.InnerProductFacts Verif.CommitFacts
  Verif.GipaFacts Verif.GipaComplete Verif.GipaTop Verif.GipaAttack Verif.SerFacts Verif.KeyFacts Verif.PropsBase.

(** [com] is what the commit functions and the inner product return on (a, b). *)
Definition honest_com {R} {K : field} {MA MB MT KA KB KT : module K} {OA OB OT : carrier K}
    (LMC : dhc R MA KA OA) (RMC : dhc R MB KB OB) (IPC : dhc R MT KT OT) (ip : list MA -> list MB -> res MT)
    ka kb kt a b t (ca : OA) (cb : OB) (ct : OT) : Prop :=
  dh_commit LMC ka a = Ok ca /\ dh_commit RMC kb b = Ok cb /\ ip a b = Ok t /\ dh_commit IPC [kt] [t] = Ok ct.

(** The 128-bit integer (as a field element) that the digest gives for a nonce, if invertible. *)
Definition round_value {K : field} {OA OB OT : carrier K} (D : bytes -> bytes) (prev : K)
    (c1 c2 : com3 OA OB OT) (nonce : nat) : option K :=
  let v : K := f_ofN (from_be_bytes (firstn 16 (D (gipa_hash_input nonce prev c1 c2)))) in
  if feqb v f0 then None else Some v.

(** Every round has a usable nonce below [fuel]. *)
Definition rounds_end {K : field} (OA OB OT : carrier K) (D : bytes -> bytes) (fuel : nat) : Prop :=
  forall prev (c1 c2 : com3 OA OB OT), exists n v, n < fuel /\ round_value D prev c1 c2 n = Some v.

Lemma rounds_end_live {K : field} {OA OB OT : carrier K} D fuel :
  digest16 D -> rounds_end OA OB OT D fuel ->
  forall prev (c1 c2 : com3 OA OB OT), exists c, gipa_challenge D fuel 0 prev c1 c2 = Ok c.
Proof.
  intros HD H prev c1 c2. destruct (gipa_challenge_spec_from D prev c1 c2 HD fuel 0)
    as [[m [v [_ [_ [_ E]]]]]|[Hn _]]; [eauto|].
  destruct (H prev c1 c2) as [n [v [Hlt Hv]]]. specialize (Hn n ltac:(lia)).
  unfold round_value in Hv. unfold gipa_usable in Hn. congruence.
Qed.

(** ** C09 *)
Section C09.
  Context {R : Type} {K : field} {MA MB MT KA KB KT : module K} {OA OB OT : carrier K}.
  Variables (D : bytes -> bytes) (fuel : nat).
  Context {XA XB XT : module K} (dA : XA -> OA) (dB : XB -> OB) (dT : XT -> OT).
  Context (fA : KA -> MA -> XA) (fB : KB -> MB -> XB) (fT : KT -> MT -> XT) (th : MA -> MB -> MT).
  Variables (LMC LMC' : dhc R MA KA OA) (RMC RMC' : dhc R MB KB OB) (IPC IPC' : dhc R MT KT OT).
  Variables ip ip' : list MA -> list MB -> res MT.
  Hypothesis HD : digest16 D.
  Context (LA : lin_commit LMC dA fA) (LB : lin_commit RMC dB fB) (LT : ip_commit IPC dT fT)
          (LI : lin_ip ip th).
  Context (LA' : lin_commit LMC' dA fA) (LB' : lin_commit RMC' dB fB) (LT' : ip_commit IPC' dT fT)
          (LI' : lin_ip ip' th).

  Lemma honest_com_inv ka kb kt a b t ca cb ct :
    length ka = length a -> length kb = length b -> length a = length b ->
    honest_com LMC RMC IPC ip ka kb kt a b t ca cb ct ->
    t = dot th a b /\ (ca, cb, ct) = com_of dA dB dT fA fB fT th ka a kb b kt a b.
  Proof using LA LB LT LI.
    intros H1 H2 H3 [E1 [E2 [E3 E4]]]. rewrite (lc_commit _ _ _ LA) in E1 by auto.
    rewrite (lc_commit _ _ _ LB) in E2 by auto. rewrite (li_ip _ _ LI) in E3 by auto.
    injection E3 as <-. rewrite (ic_commit _ _ _ LT) in E4. unfold com_of. split; congruence.
  Qed.

  Theorem C09_gipa_complete k a b t ka kb kt ca cb ct :
    length a = 2 ^ k -> length b = 2 ^ k -> length ka = 2 ^ k -> length kb = 2 ^ k ->
    honest_com LMC RMC IPC ip ka kb kt a b t ca cb ct ->
    (** the only other outcome is that a challenge loop needs more than [fuel] iterations *)
    gipa_prove LMC RMC IPC ip D fuel (a, b, t) (ka, kb, kt) (ca, cb, ct) = Loop \/
    exists proof,
      gipa_prove LMC RMC IPC ip D fuel (a, b, t) (ka, kb, kt) (ca, cb, ct) = Ok proof /\
      gipa_verify LMC' RMC' IPC' ip' D fuel (ka, kb, kt) (ca, cb, ct) proof = Ok true.
  Proof using All.
    intros Ha Hb Hka Hkb H. apply honest_com_inv in H as [-> ->]; try congruence.
    eapply gipa_complete_outcome; eauto.
  Qed.

  Theorem C09_gipa_complete_live k a b t ka kb kt ca cb ct :
    rounds_end OA OB OT D fuel ->
    length a = 2 ^ k -> length b = 2 ^ k -> length ka = 2 ^ k -> length kb = 2 ^ k ->
    honest_com LMC RMC IPC ip ka kb kt a b t ca cb ct ->
    exists proof,
      gipa_prove LMC RMC IPC ip D fuel (a, b, t) (ka, kb, kt) (ca, cb, ct) = Ok proof /\
      gipa_verify LMC' RMC' IPC' ip' D fuel (ka, kb, kt) (ca, cb, ct) proof = Ok true.
  Proof using All.
    intros HL Ha Hb Hka Hkb H. apply honest_com_inv in H as [-> ->]; try congruence.
    eapply gipa_complete_live; eauto. now apply rounds_end_live.
  Qed.
End C09.
Print Assumptions C09_gipa_complete.
Print Assumptions C09_gipa_complete_live.

(** The instantiations of the tests: prover with environment [E], verifier with [E'].  The honest
    commitments are written out as sums. *)
Theorem C09_pairing_instance R (P : pairing) (E E' : penv) (r1 : sampler R (pG1 P)) (r2 : sampler R (pG2 P))
    D fuel k (a : list (pG1 P)) (b : list (pG2 P)) (ka : list (pG2 P)) (kb : list (pG1 P)) (kt : unitmod (pK P)) :
  1 <= threads E -> 1 <= threads E' -> digest16 D ->
  rounds_end (mod_carrier (pGT P)) (mod_carrier (pGT P)) (identity_output (pGT P)) D fuel ->
  length a = 2 ^ k -> length b = 2 ^ k -> length ka = 2 ^ k -> length kb = 2 ^ k ->
  let t := pairing_sum P a b in
  let com := (pairing_sum P a ka, pairing_sum P kb b, [t])
             : com3 (mod_carrier (pGT P)) (mod_carrier (pGT P)) (identity_output (pGT P)) in
  exists proof,
    gipa_prove (afgho_g1 P E r2) (afgho_g2 P E r1) (identity (pGT P)) (pairing_ip P E) D fuel
      (a, b, t) (ka, kb, kt) com = Ok proof /\
    gipa_verify (afgho_g1 P E' r2) (afgho_g2 P E' r1) (identity (pGT P)) (pairing_ip P E') D fuel
      (ka, kb, kt) com proof = Ok true.
Proof.
  intros HE HE' HD HL Ha Hb Hka Hkb t com.
  apply (C09_gipa_complete_live D fuel mid mid idout (phi_g1 P) (pr_e P) psi_id (pr_e P)
           (afgho_g1 P E r2) (afgho_g1 P E' r2) (afgho_g2 P E r1) (afgho_g2 P E' r1)
           (identity (pGT P)) (identity (pGT P)) (pairing_ip P E) (pairing_ip P E') HD
           (afgho_g1_law P E HE r2) (afgho_g2_law P E HE r1) (identity_law _) (pairing_ip_law P E HE)
           (afgho_g1_law P E' HE' r2) (afgho_g2_law P E' HE' r1) (identity_law _) (pairing_ip_law P E' HE') k); auto.
  repeat split; cbn [dh_commit afgho_g1 afgho_g2 identity]; apply C01_pairing_inner_product; congruence.
Qed.
Print Assumptions C09_pairing_instance.

Theorem C09_multiexp_instance R (P : pairing) (E E' : penv) (r1 : sampler R (pG1 P)) (r2 : sampler R (pG2 P))
    D fuel k (a : list (pG1 P)) (b : list (pK P)) (ka : list (pG2 P)) (kb : list (pG1 P)) (kt : unitmod (pK P)) :
  1 <= threads E -> 1 <= threads E' -> digest16 D ->
  rounds_end (mod_carrier (pGT P)) (mod_carrier (pG1 P)) (identity_output (pG1 P)) D fuel ->
  length a = 2 ^ k -> length b = 2 ^ k -> length ka = 2 ^ k -> length kb = 2 ^ k ->
  let t := msm_sum a b in
  let com := (pairing_sum P a ka, msm_sum kb b, [t])
             : com3 (mod_carrier (pGT P)) (mod_carrier (pG1 P)) (identity_output (pG1 P)) in
  exists proof,
    gipa_prove (afgho_g1 P E r2) (pedersen (pG1 P) r1) (identity (pG1 P)) (multiexp_ip (pG1 P)) D fuel
      (a, b, t) (ka, kb, kt) com = Ok proof /\
    gipa_verify (afgho_g1 P E' r2) (pedersen (pG1 P) r1) (identity (pG1 P)) (multiexp_ip (pG1 P)) D fuel
      (ka, kb, kt) com proof = Ok true.
Proof.
  intros HE HE' HD HL Ha Hb Hka Hkb t com.
  apply (C09_gipa_complete_live D fuel mid mid idout (phi_g1 P) smul psi_id smul
           (afgho_g1 P E r2) (afgho_g1 P E' r2) (pedersen (pG1 P) r1) (pedersen (pG1 P) r1)
           (identity (pG1 P)) (identity (pG1 P)) (multiexp_ip (pG1 P)) (multiexp_ip (pG1 P)) HD
           (afgho_g1_law P E HE r2) (pedersen_law _ r1) (identity_law _) (multiexp_ip_law _)
           (afgho_g1_law P E' HE' r2) (pedersen_law _ r1) (identity_law _) (multiexp_ip_law _) k); auto.
  repeat split; cbn [dh_commit afgho_g1 pedersen identity].
  - apply C01_pairing_inner_product; congruence.
  - destruct (C02_multiexp_outcome _ _ kb b) as [[H _]|[_ H]]; [congruence|exact H].
  - destruct (C02_multiexp_outcome _ _ a b) as [[H _]|[_ H]]; [congruence|exact H].
Qed.
Print Assumptions C09_multiexp_instance.

Theorem C09_scalar_instance R (K : field) (G H : module K) (E E' : penv) (rg : sampler R G) (rh : sampler R H)
    D fuel k (a b : list K) (ka : list G) (kb : list H) (kt : unitmod K) :
  digest16 D -> rounds_end (mod_carrier G) (mod_carrier H) (identity_output (fmod K)) D fuel ->
  length a = 2 ^ k -> length b = 2 ^ k -> length ka = 2 ^ k -> length kb = 2 ^ k ->
  let t := scalar_sum a b in
  let com := (msm_sum ka a, msm_sum kb b, [t])
             : com3 (mod_carrier G) (mod_carrier H) (identity_output (fmod K)) in
  exists proof,
    gipa_prove (pedersen G rg) (pedersen H rh) (identity (fmod K)) (scalar_ip E) D fuel
      (a, b, t) (ka, kb, kt) com = Ok proof /\
    gipa_verify (pedersen G rg) (pedersen H rh) (identity (fmod K)) (scalar_ip E') D fuel
      (ka, kb, kt) com proof = Ok true.
Proof.
  intros HD HL Ha Hb Hka Hkb t com.
  apply (C09_gipa_complete_live D fuel mid mid idout smul smul psi_id fmul'
           (pedersen G rg) (pedersen G rg) (pedersen H rh) (pedersen H rh)
           (identity (fmod K)) (identity (fmod K)) (scalar_ip E) (scalar_ip E') HD
           (pedersen_law _ rg) (pedersen_law _ rh) (identity_law _) (scalar_ip_law E)
           (pedersen_law _ rg) (pedersen_law _ rh) (identity_law _) (scalar_ip_law E') k); auto.
  repeat split; cbn [dh_commit pedersen identity].
  - destruct (C02_multiexp_outcome _ _ ka a) as [[He _]|[_ He]]; [congruence|exact He].
  - destruct (C02_multiexp_outcome _ _ kb b) as [[He _]|[_ He]]; [congruence|exact He].
  - destruct (C02_scalar_outcome _ E a b) as [[He _]|[_ He]]; [congruence|exact He].
Qed.
Print Assumptions C09_scalar_instance.

(** A run of the pairing instantiation: four elements, toy hash, prover with 3 threads, verifier with 1. *)
Definition ex_env1 : penv := {| threads := 1; shape := fun _ => RLeaf |}.
Definition ex_a : list ZM := zl [3; 1; 4; 1]%Z.
Definition ex_b : list ZM := zl [5; 9; 2; 6]%Z.
Definition ex_ka : list ZM := zl [11; 12; 13; 14]%Z.
Definition ex_kb : list ZM := zl [21; 22; 23; 24]%Z.
Definition ex_L E := afgho_g1 ZPair E ex_rand.
Definition ex_R E := afgho_g2 ZPair E ex_rand.
Definition ex_T := identity (R := Z) ZM.
Definition ex_com : com3 (mod_carrier ZM) (mod_carrier ZM) (identity_output ZM) :=
  (pairing_sum ZPair ex_a ex_ka, pairing_sum ZPair ex_kb ex_b, [pairing_sum ZPair ex_a ex_b]).
Definition ex_prove := gipa_prove (ex_L ex_env) (ex_R ex_env) ex_T (pairing_ip ZPair ex_env) toy_digest 5.
Definition ex_verify := gipa_verify (ex_L ex_env1) (ex_R ex_env1) ex_T (pairing_ip ZPair ex_env1) toy_digest 5.

Example C09_example :
  match ex_prove (ex_a, ex_b, pairing_sum ZPair ex_a ex_b) (ex_ka, ex_kb, tt) ex_com with
  | Ok proof => length (gp_steps proof) = 2 /\ ex_verify (ex_ka, ex_kb, tt) ex_com proof = Ok true
  | _ => False
  end.
Proof. vm_compute. split; reflexivity. Qed.

Lemma toy_digest16 : digest16 toy_digest.
Proof. intros b. unfold toy_digest. rewrite map_length, seq_length. lia. Qed.

(** a digest for which every round ends at once *)
Definition one_digest (b : bytes) : bytes := repeat 0%N 15 ++ [1%N] ++ repeat 0%N 16.
Example rounds_end_example : digest16 one_digest /\
  rounds_end (mod_carrier ZM) (mod_carrier ZM) (identity_output ZM) one_digest 1.
Proof.
  split; [intros b; cbn; lia|]. intros prev c1 c2. exists 0, (zq 1). split; [lia|]. vm_compute. reflexivity.
Qed.

(** ** C10 *)
Section C10.
  Context {R : Type} {K : field} {MA MB MT KA KB KT : module K} {OA OB OT : carrier K}.
  Variables (D : bytes -> bytes) (fuel : nat).
  Context {XA XB XT : module K} (dA : XA -> OA) (dB : XB -> OB) (dT : XT -> OT).
  Context (fA : KA -> MA -> XA) (fB : KB -> MB -> XB) (fT : KT -> MT -> XT) (th : MA -> MB -> MT).
  Variables (LMC : dhc R MA KA OA) (RMC : dhc R MB KB OB) (IPC : dhc R MT KT OT).
  Variable ip : list MA -> list MB -> res MT.
  Context (LA : lin_commit LMC dA fA) (LB : lin_commit RMC dB fB) (LT : ip_commit IPC dT fT)
          (LI : lin_ip ip th).
  Notation prove := (gipa_prove LMC RMC IPC ip D fuel).

  Theorem C10_prove_ok_sound a b t ka kb kt ca cb ct proof :
    prove (a, b, t) (ka, kb, kt) (ca, cb, ct) = Ok proof ->
    length a = length b /\ (exists k, length a = 2 ^ k) /\
    honest_com LMC RMC IPC ip ka kb kt a b t ca cb ct.
  Proof using LI.
    intros H. apply (gipa_prove_ok_inv D fuel th LMC RMC IPC ip LI) in H.
    destruct H as [Hl [Hk [Ht [E1 [E2 E3]]]]]. split; [exact Hl|]. split; [exact Hk|].
    repeat split; auto. rewrite (li_ip _ _ LI) by auto. congruence.
  Qed.

  Theorem C10_wrong_value a b t t' ka kb kt com :
    ip a b = Ok t' -> t <> t' -> prove (a, b, t) (ka, kb, kt) com = Err ArgInnerProductInvalid.
  Proof using LI.
    intros H Ht. destruct (Nat.eq_dec (length a) (length b)) as [Hl|Hl].
    - rewrite (li_ip _ _ LI) in H by auto. injection H as <-.
      now apply (gipa_prove_wrong_value D fuel th LMC RMC IPC ip LI).
    - destruct (li_err _ _ LI a b Hl) as [e He]. congruence.
  Qed.

  Theorem C10_mismatched_lengths a b t ka kb kt com :
    length a <> length b -> exists e, prove (a, b, t) (ka, kb, kt) com = Err e /\ ip a b = Err e.
  Proof using LI.
    intros Hl. destruct (li_err _ _ LI a b Hl) as [e He]. exists e. split; [|exact He].
    destruct com as [[ca cb] ct]. unfold gipa_prove. now rewrite He.
  Qed.

  Theorem C10_not_power_of_two a b t ka kb kt com :
    ip a b = Ok t -> (forall k, length a <> 2 ^ k) ->
    prove (a, b, t) (ka, kb, kt) com = Err (ArgMessageLengthInvalid (length a) (length b)).
  Proof using LI.
    intros H Hk. destruct (Nat.eq_dec (length a) (length b)) as [Hl|Hl].
    - rewrite (li_ip _ _ LI) in H by auto. injection H as <-.
      now apply (gipa_prove_bad_length D fuel th LMC RMC IPC ip LI).
    - destruct (li_err _ _ LI a b Hl) as [e He]. congruence.
  Qed.

  Theorem C10_wrong_commitment k a b t ka kb kt ca cb ct :
    length a = 2 ^ k -> length b = 2 ^ k -> length ka = 2 ^ k -> length kb = 2 ^ k ->
    ip a b = Ok t -> ~ honest_com LMC RMC IPC ip ka kb kt a b t ca cb ct ->
    prove (a, b, t) (ka, kb, kt) (ca, cb, ct) = Err ArgInnerProductInvalid.
  Proof using LA LB LT LI.
    intros Ha Hb Hka Hkb Ht Hne. rewrite (li_ip _ _ LI) in Ht by congruence. injection Ht as <-.
    apply (gipa_prove_wrong_com D fuel dA dB dT fA fB fT th LMC RMC IPC ip LA LB LT LI _ _ _ _ _ _ k); auto.
    intros Hc. apply Hne. injection Hc as -> -> ->. repeat split.
    - apply (lc_commit _ _ _ LA). congruence.
    - apply (lc_commit _ _ _ LB). congruence.
    - apply (li_ip _ _ LI). congruence.
    - apply (ic_commit _ _ _ LT).
  Qed.
End C10.
Print Assumptions C10_prove_ok_sound.
Print Assumptions C10_wrong_value.
Print Assumptions C10_mismatched_lengths.
Print Assumptions C10_not_power_of_two.
Print Assumptions C10_wrong_commitment.

(** the outcome without the value *)
Definition outcome {A} (r : res A) : res unit := do _ <- r; Ok tt.

Example C10_example_wrong_value :
  outcome (ex_prove (ex_a, ex_b, zq 7) (ex_ka, ex_kb, tt) ex_com) = Err ArgInnerProductInvalid.
Proof. vm_compute. reflexivity. Qed.
Example C10_example_length3 :
  outcome (ex_prove (zl [1; 2; 3]%Z, zl [1; 1; 1]%Z, zq 6) (ex_ka, ex_kb, tt) ex_com) = Err (ArgMessageLengthInvalid 3 3).
Proof. vm_compute. reflexivity. Qed.
Example C10_example_length0 :
  outcome (ex_prove ([], [], zq 0) ([], [], tt) (zq 0, zq 0, [zq 0])) = Err (ArgMessageLengthInvalid 0 0).
Proof. vm_compute. reflexivity. Qed.
Example C10_example_mismatch :
  outcome (ex_prove (zl [1; 2]%Z, zl [1]%Z, zq 6) (ex_ka, ex_kb, tt) ex_com) = Err (IPMessageLengthInvalid 2 1).
Proof. vm_compute. reflexivity. Qed.
Example C10_example_wrong_commitment :
  outcome (ex_prove (ex_a, ex_b, pairing_sum ZPair ex_a ex_b) (ex_ka, ex_kb, tt)
    (zq 1, pairing_sum ZPair ex_kb ex_b, [pairing_sum ZPair ex_a ex_b])) = Err ArgInnerProductInvalid.
Proof. vm_compute. reflexivity. Qed.

(** ** C11: for arbitrary schemes, lawful or not *)
Section C11.
  Context {R : Type} {K : field} {MA MB MT KA KB KT : module K} {OA OB OT : carrier K}.
  Variables (D : bytes -> bytes) (fuel : nat).
  Variables (LMC : dhc R MA KA OA) (RMC : dhc R MB KB OB) (IPC : dhc R MT KT OT).
  Variable ip : list MA -> list MB -> res MT.
  Notation verify := (gipa_verify LMC RMC IPC ip D fuel).

  Theorem C11_malformed_keys ka kb kt com proof :
    length ka <> length kb \/ (forall k, length ka <> 2 ^ k) ->
    verify (ka, kb, kt) com proof = Err (ArgMessageLengthInvalid (length ka) (length kb)).
  Proof. intros H. now apply (gipa_verify_bad_keys D fuel LMC RMC IPC ip ka kb kt com proof). Qed.

  Theorem C11_answer_means_log_rounds ka kb kt com proof v :
    verify (ka, kb, kt) com proof = Ok v ->
    length ka = 2 ^ length (gp_steps proof) /\ length kb = 2 ^ length (gp_steps proof).
  Proof. apply gipa_verify_ok_rounds. Qed.

  Theorem C11_wrong_rounds_panic k ka kb kt com proof :
    digest16 D -> rounds_end OA OB OT D fuel ->
    length ka = 2 ^ k -> length kb = 2 ^ k -> length (gp_steps proof) <> k ->
    verify (ka, kb, kt) com proof = Panic.
  Proof.
    intros HD HL Ha Hb Hk.
    assert (Hc : forall steps prev, exists cs, chain (OA := OA) (OB := OB) (OT := OT) D fuel prev steps cs).
    { induction steps as [|s steps IH]; intros prev; [eexists; constructor|].
      destruct (rounds_end_live D fuel HD HL prev (fst s) (snd s)) as [[c ci] Ec].
      destruct (IH c) as [cs Hcs]. exists (c :: cs). econstructor; eauto. }
    destruct (Hc (rev (gp_steps proof)) f0) as [cs Hcs].
    eapply gipa_verify_wrong_rounds; eauto.
  Qed.
End C11.
Print Assumptions C11_malformed_keys.
Print Assumptions C11_answer_means_log_rounds.
Print Assumptions C11_wrong_rounds_panic.

Example C11_example_keys :
  ex_verify (zl [1; 2; 3]%Z, zl [1; 2; 3]%Z, tt) ex_com (mk_gipa_proof (MA := ZM) (MB := ZM) [] (zq 1, zq 1)) = Err (ArgMessageLengthInvalid 3 3).
Proof. vm_compute. reflexivity. Qed.
Example C11_example_rounds :
  ex_verify (ex_ka, ex_kb, tt) ex_com (mk_gipa_proof (MA := ZM) (MB := ZM) [(ex_com, ex_com)] (zq 1, zq 1)) = Panic.
Proof. vm_compute. reflexivity. Qed.

(** ** C12 *)
(** The challenges c_1, ..., c_k of a list of rounds: each is the inverse of the value given by the
    first usable nonce, the previous challenge (0 at the start) being hashed too. *)
Fixpoint round_challenges {K : field} {OA OB OT : carrier K} (D : bytes -> bytes) (fuel : nat) (prev : K)
    (steps : list (com3 OA OB OT * com3 OA OB OT)) (cs : list K) : Prop :=
  match steps, cs with
  | [], [] => True
  | s :: steps, c :: cs =>
    (exists n v, n < fuel /\ first_usable (round_value D prev (fst s) (snd s)) n v /\ c = finv v) /\
    round_challenges D fuel c steps cs
  | _, _ => False
  end.

Lemma round_challenges_chain {K : field} {OA OB OT : carrier K} D fuel (HD : digest16 D)
    (steps : list (com3 OA OB OT * com3 OA OB OT)) : forall (prev : K) cs,
  round_challenges D fuel prev steps cs <-> chain D fuel prev steps cs.
Proof.
  induction steps as [|s steps IH]; intros prev cs.
  - split; [destruct cs; [constructor|contradiction] | inversion 1; subst; exact I].
  - destruct cs as [|c cs]; cbn [round_challenges]; [split; [contradiction|inversion 1]|].
    destruct (gipa_challenge_spec_from D prev (fst s) (snd s) HD fuel 0)
      as [[m [v [Hm [Hv [Hlt E]]]]]|[Hn E]].
    + split.
      * intros [[n [w [Hn [[Hw Hfirst] ->]]]] Hc].
        assert (n = m).
        { destruct (Nat.lt_trichotomy n m) as [Hl|[Hl|Hl]]; auto.
          - specialize (Hlt n ltac:(lia)). unfold round_value in Hw. unfold gipa_usable in Hlt. congruence.
          - specialize (Hfirst m Hl). unfold round_value in Hfirst. unfold gipa_usable in Hv. congruence. }
        subst n. assert (w = v) by (unfold round_value in Hw; unfold gipa_usable in Hv; congruence). subst w.
        econstructor; [exact E|]. now apply IH.
      * intros Hc. inversion Hc as [|prev' s' steps' c' ci cs' Hch Hrest]; subst. rewrite E in Hch.
        injection Hch as <- <-. split.
        -- exists m, v. split; [lia|]. split; [|reflexivity]. split; [exact Hv|]. intros i Hi. apply Hlt. lia.
        -- now apply IH.
    + split.
      * intros [[n [w [Hlt [[Hw _] _]]]] _]. specialize (Hn n ltac:(lia)).
        unfold round_value in Hw. unfold gipa_usable in Hn. congruence.
      * intros Hc. inversion Hc; subst. congruence.
Qed.

(** round j (first round = 0) of a proof; the proof stores them last first *)
Definition round {K} {MA MB : module K} {OA OB OT : carrier K} (proof : gipa_proof MA MB OA OB OT) (j : nat)
  : com3 OA OB OT * com3 OA OB OT :=
  nth (length (gp_steps proof) - 1 - j) (gp_steps proof) ((c0, c0, c0), (c0, c0, c0)).

(** com + sum_j (c_j com_1,j + c_j^-1 com_2,j) *)
Definition folded {K} {MA MB : module K} {OA OB OT : carrier K} {M : module K} (pr : com3 OA OB OT -> M)
    (com : M) (proof : gipa_proof MA MB OA OB OT) (cs : list K) : M :=
  com +m big (length (gp_steps proof))
           (fun j => fat cs j *m pr (fst (round proof j)) +m finv (fat cs j) *m pr (snd (round proof j))).

(** the final key: sum_i s_i ck_i, s_i the product of the challenges selected by the bits of i, the
    last round's challenge being bit 0 *)
Definition folded_key {K} {M : module K} (ck : list M) (cs : list K) : M :=
  big (length ck) (fun i => subset_prod (rev cs) i *m at_ ck i).

Lemma cfold1_folded {K} {MA MB : module K} {OA OB OT : carrier K} {M : module K} (pr : com3 OA OB OT -> mod_carrier M)
    (com : M) (proof : gipa_proof MA MB OA OB OT) cs :
  length cs = length (gp_steps proof) ->
  cfold1 (O := mod_carrier M) pr com (rev (gp_steps proof)) cs = folded (M := M) pr com proof cs.
Proof.
  intros H. rewrite cfold1_sum by (rewrite rev_length; auto). unfold folded. f_equal.
  rewrite msum_big, zipw_length, rev_length, H, Nat.min_id. apply big_ext. intros j Hj.
  unfold at_. etransitivity.
  { apply zipw_nth with (da := ((c0, c0, c0), (c0, c0, c0))) (db := f0); rewrite ?rev_length; lia. }
  unfold fat, round. rewrite rev_nth by lia.
  now replace (length (gp_steps proof) - S j) with (length (gp_steps proof) - 1 - j) by lia.
Qed.

(** the vector in the inner-product component, for [IdentityOutput] commitments *)
Definition com_vec {K} {OA OB : carrier K} {T : module K} (c : com3 OA OB (identity_output T)) : list T := snd c.

(** The folded vector for [IdentityOutput] commitments: the common prefix length and the elementwise sums *)
Fixpoint common_length {K} {OA OB : carrier K} {T : module K} (n : nat)
    (steps : list (com3 OA OB (identity_output T) * com3 OA OB (identity_output T))) : nat :=
  match steps with
  | [] => n
  | s :: steps => common_length (Nat.min n (Nat.min (length (com_vec (fst s))) (length (com_vec (snd s))))) steps
  end.

Lemma common_length_le {K} {OA OB : carrier K} {T : module K}
    (steps : list (com3 OA OB (identity_output T) * com3 OA OB (identity_output T))) : forall n,
  common_length n steps <= n.
Proof.
  induction steps as [|s steps IH]; intros n; cbn [common_length]; [lia|].
  specialize (IH (Nat.min n (Nat.min (length (com_vec (fst s))) (length (com_vec (snd s)))))). lia.
Qed.

Definition vec_term {K} {OA OB : carrier K} {T : module K} (i : nat)
    (s : com3 OA OB (identity_output T) * com3 OA OB (identity_output T)) (c : K) : T :=
  c *m at_ (com_vec (fst s)) i +m finv c *m at_ (com_vec (snd s)) i.

Lemma map_seq_at {K} {T : module K} (l : list T) : map (fun i => at_ l i) (seq 0 (length l)) = l.
Proof.
  apply (nth_ext_eq _ _ m0); [now rewrite map_length, seq_length|]. rewrite map_length, seq_length. intros i Hi.
  rewrite (nth_indep _ m0 (at_ l 0)) by (rewrite map_length, seq_length; auto).
  now rewrite (map_nth (fun i => at_ l i)), seq_nth.
Qed.

Lemma at_scale {K} {T : module K} x (l : list T) i : i < length l -> at_ (map (mscale x) l) i = x *m at_ l i.
Proof.
  intros H. unfold at_. rewrite (nth_indep _ m0 (x *m m0)) by (rewrite map_length; auto). apply map_nth.
Qed.

Lemma cfold1_identity {K} {OA OB : carrier K} {T : module K}
    (steps : list (com3 OA OB (identity_output T) * com3 OA OB (identity_output T))) : forall (com : list T) cs,
  length cs = length steps ->
  cfold1 (O := identity_output T) com_t com steps cs =
  map (fun i => at_ com i +m msum (zipw (vec_term i) steps cs)) (seq 0 (common_length (length com) steps)).
Proof.
  induction steps as [|s steps IH]; intros com cs H; destruct cs as [|c cs]; try discriminate.
  - cbn [cfold1 zipw common_length]. rewrite <- (map_seq_at com) at 1. apply map_ext. intros i.
    rewrite msum_nil. symmetry. apply madd_0_r.
  - cbn [cfold1 zipw common_length].
    change (com_t (fst s)) with (com_vec (fst s)). change (com_t (snd s)) with (com_vec (snd s)).
    change (@cadd K (identity_output T)) with (zipw (@madd K T)).
    change (@cscale K (identity_output T)) with (fun x => map (@mscale K T x)). cbv beta.
    rewrite IH by (cbn in H; lia).
    rewrite !zipw_length, !map_length.
    replace (Nat.min (Nat.min (length (com_vec (fst s))) (length com)) (length (com_vec (snd s))))
      with (Nat.min (length com) (Nat.min (length (com_vec (fst s))) (length (com_vec (snd s))))) by lia.
    apply map_ext_in. intros i Hi. apply in_seq in Hi.
    pose proof (common_length_le steps (Nat.min (length com) (Nat.min (length (com_vec (fst s))) (length (com_vec (snd s)))))) as Hc.
    rewrite msum_cons. generalize (msum (zipw (vec_term i) steps cs)). intros z.
    unfold at_ at 1.
    rewrite (zipw_nth madd _ _ i m0 m0 m0) by (rewrite ?zipw_length, ?map_length; lia).
    rewrite (zipw_nth madd _ _ i m0 m0 m0) by (rewrite ?map_length; lia).
    fold (at_ (map (mscale c) (com_vec (fst s))) i) (at_ (map (mscale (finv c)) (com_vec (snd s))) i) (at_ com i).
    rewrite !at_scale by lia. unfold vec_term. rewrite !madd_assoc. f_equal. f_equal. apply madd_comm.
Qed.

(** the components of a triple when they are group elements *)
Definition grp_a {K} {X : module K} {OB OT : carrier K} (c : com3 (mod_carrier X) OB OT) : X := fst (fst c).
Definition grp_b {K} {X : module K} {OA OT : carrier K} (c : com3 OA (mod_carrier X) OT) : X := snd (fst c).
Definition grp_t {K} {X : module K} {OA OB : carrier K} (c : com3 OA OB (mod_carrier X)) : X := snd c.

Section C12.
  Context {R : Type} {K : field} {MA MB MT KA KB : module K}.
  Variables (D : bytes -> bytes) (fuel : nat).

  (** arbitrary schemes *)
  Lemma gipa_verify_api {KT : module K} {OA OB OT : carrier K} (LMC : dhc R MA KA OA) (RMC : dhc R MB KB OB)
      (IPC : dhc R MT KT OT) (ip : list MA -> list MB -> res MT) ka kb kt com proof : digest16 D ->
    gipa_verify LMC RMC IPC ip D fuel (ka, kb, kt) com proof = Ok true <->
    exists cs v, round_challenges D fuel f0 (rev (gp_steps proof)) cs /\
      length ka = 2 ^ length (gp_steps proof) /\ length kb = 2 ^ length (gp_steps proof) /\
      ip [fst (gp_base proof)] [snd (gp_base proof)] = Ok v /\
      dh_commit LMC [folded_key ka (map finv cs)] [fst (gp_base proof)]
        = Ok (cfold1 com_a (com_a com) (rev (gp_steps proof)) cs) /\
      dh_commit RMC [folded_key kb cs] [snd (gp_base proof)]
        = Ok (cfold1 com_b (com_b com) (rev (gp_steps proof)) cs) /\
      dh_commit IPC [kt] [v] = Ok (cfold1 com_t (com_t com) (rev (gp_steps proof)) cs).
  Proof.
    intros HD.
    assert (Hkey : forall cs, chain D fuel f0 (rev (gp_steps proof)) cs ->
              length ka = 2 ^ length (gp_steps proof) -> length kb = 2 ^ length (gp_steps proof) ->
              gipa_final_keys ka kb (rev cs) = Ok (folded_key ka (map finv cs), folded_key kb cs)).
    { intros cs Hch Hla Hlb. pose proof (chain_length _ _ _ _ _ Hch) as Hcl. rewrite rev_length in Hcl.
      rewrite final_keys_ok.
      - unfold folded_key. rewrite map_rev, !dot_subs; rewrite ?rev_length, ?map_length; congruence.
      - rewrite rev_length. congruence.
      - eapply pow2_nonempty; eauto.
      - apply Forall_rev. eapply chain_nonzero; eauto. }
    unfold gipa_verify. split.
    - intros H.
      destruct (negb (count_ones (length ka) =? 1) || negb (length ka =? length kb)) eqn:Eg; [discriminate|].
      apply orb_false_iff in Eg as [Eg1 Eg2]. apply negb_false_iff, Nat.eqb_eq in Eg2.
      apply rbind_ok in H as [[base T] [H1 H]]. apply rbind_ok in H as [[ka0 kb0] [H2 H]].
      apply recursive_challenges_inv in H1 as [cs [Hch [-> ->]]].
      pose proof (final_keys_inv _ _ _ _ H2) as [Hl [Hne Hnz]].
      pose proof (chain_length _ _ _ _ _ Hch) as Hcl. rewrite rev_length in Hl, Hcl. rewrite Hcl in Hl.
      rewrite (Hkey cs Hch Hl ltac:(congruence)) in H2. injection H2 as <- <-.
      unfold gipa_verify_base in H. destruct (gp_base proof) as [a b] eqn:Eb. cbn [cfold] in H.
      apply rbind_ok in H as [v [Hv H]]. rewrite !rand_then_true, !dh_verify_true in H.
      destruct H as [E1 [E2 E3]].
      exists cs, v. cbn [fst snd]. repeat split; auto; try congruence. now apply round_challenges_chain.
    - intros [cs [v [Hch [Hla [Hlb [Hv [E1 [E2 E3]]]]]]]]. apply round_challenges_chain in Hch; auto.
      rewrite (proj2 (Nat.eqb_eq (length ka) (length kb))) by congruence.
      rewrite (proj2 (Nat.eqb_eq (count_ones (length ka)) 1))
        by (apply count_ones_pow2; eauto). cbn [negb orb].
      rewrite (recursive_challenges_chain D fuel com proof cs Hch). cbn [rbind].
      rewrite (Hkey cs Hch Hla Hlb). cbn [rbind]. unfold gipa_verify_base.
      destruct (gp_base proof) as [a b]. cbn [fst snd] in *. cbn [cfold]. rewrite Hv. cbn [rbind].
      rewrite !rand_then_true, !dh_verify_true. auto.
  Qed.

  (** commitments whose outputs are group elements *)
  Theorem C12_accepts_iff_group {KT : module K} {XA XB XT : module K}
      (LMC : dhc R MA KA (mod_carrier XA)) (RMC : dhc R MB KB (mod_carrier XB))
      (IPC : dhc R MT KT (mod_carrier XT)) (ip : list MA -> list MB -> res MT) ka kb kt ca cb ct proof :
    digest16 D ->
    gipa_verify LMC RMC IPC ip D fuel (ka, kb, kt) (ca, cb, ct) proof = Ok true <->
    exists cs v, round_challenges D fuel f0 (rev (gp_steps proof)) cs /\
      length ka = 2 ^ length (gp_steps proof) /\ length kb = 2 ^ length (gp_steps proof) /\
      ip [fst (gp_base proof)] [snd (gp_base proof)] = Ok v /\
      dh_commit LMC [folded_key ka (map finv cs)] [fst (gp_base proof)]
        = Ok (folded grp_a ca proof cs) /\
      dh_commit RMC [folded_key kb cs] [snd (gp_base proof)]
        = Ok (folded grp_b cb proof cs) /\
      dh_commit IPC [kt] [v] = Ok (folded grp_t ct proof cs).
  Proof.
    intros HD. rewrite (gipa_verify_api LMC RMC IPC ip ka kb kt (ca, cb, ct) proof HD).
    split; intros [cs [v [Hch [Hla [Hlb [Hv [E1 [E2 E3]]]]]]]]; exists cs, v;
      (assert (Hcl : length cs = length (gp_steps proof))
        by (apply round_challenges_chain in Hch; auto; apply chain_length in Hch; now rewrite rev_length in Hch));
      rewrite ?cfold1_folded in *; auto; repeat split; auto.
  Qed.

  (** the inner-product value committed by [IdentityCommitment] (its output is a vector) *)
  Theorem C12_accepts_iff_identity {XA XB : module K}
      (LMC : dhc R MA KA (mod_carrier XA)) (RMC : dhc R MB KB (mod_carrier XB))
      (ip : list MA -> list MB -> res MT) ka kb kt ca cb ct proof :
    digest16 D ->
    gipa_verify LMC RMC (identity MT) ip D fuel (ka, kb, kt) (ca, cb, ct) proof = Ok true <->
    exists cs v, round_challenges D fuel f0 (rev (gp_steps proof)) cs /\
      length ka = 2 ^ length (gp_steps proof) /\ length kb = 2 ^ length (gp_steps proof) /\
      ip [fst (gp_base proof)] [snd (gp_base proof)] = Ok v /\
      dh_commit LMC [folded_key ka (map finv cs)] [fst (gp_base proof)]
        = Ok (folded grp_a ca proof cs) /\
      dh_commit RMC [folded_key kb cs] [snd (gp_base proof)]
        = Ok (folded grp_b cb proof cs) /\
      common_length (length ct) (gp_steps proof) = 1 /\
      v = folded (fun c => at_ (com_vec c) 0) (at_ ct 0) proof cs.
  Proof.
    intros HD. rewrite (gipa_verify_api LMC RMC (identity MT) ip ka kb kt (ca, cb, ct) proof HD).
    assert (Hcr : forall (steps : list (com3 (mod_carrier XA) (mod_carrier XB) (identity_output MT) *
                                 com3 (mod_carrier XA) (mod_carrier XB) (identity_output MT))) n,
              common_length n (rev steps) = common_length n steps).
    { assert (Hmin : forall (s : com3 (mod_carrier XA) (mod_carrier XB) (identity_output MT) *
                                 com3 (mod_carrier XA) (mod_carrier XB) (identity_output MT)) l n,
                common_length n (l ++ [s]) =
                Nat.min (common_length n l) (Nat.min (length (com_vec (fst s))) (length (com_vec (snd s))))).
      { intros s. induction l; intros n; [reflexivity|]. cbn [app common_length]. apply IHl. }
      assert (Hm : forall (l : list (com3 (mod_carrier XA) (mod_carrier XB) (identity_output MT) *
                                 com3 (mod_carrier XA) (mod_carrier XB) (identity_output MT))) n m,
                common_length (Nat.min n m) l = Nat.min (common_length n l) m).
      { induction l; intros n m; [reflexivity|]. cbn [common_length]. rewrite <- IHl. f_equal. lia. }
      induction steps as [|s steps IH]; intros n; [reflexivity|]. cbn [rev common_length].
      rewrite Hmin, IH, Hm. reflexivity. }
    assert (Hid : forall cs, length cs = length (gp_steps proof) ->
              cfold1 (O := identity_output MT) com_t (ct : list MT) (rev (gp_steps proof)) cs =
              map (fun i => folded (fun c => at_ (com_vec c) i) (at_ ct i) proof cs)
                  (seq 0 (common_length (length ct) (gp_steps proof)))).
    { intros cs Hcl. rewrite cfold1_identity by (rewrite rev_length; auto). rewrite Hcr.
      apply map_ext. intros i. unfold folded. f_equal.
      rewrite msum_big, zipw_length, rev_length, Hcl, Nat.min_id. apply big_ext. intros j Hj.
      unfold at_ at 1. etransitivity.
      { apply zipw_nth with (da := ((c0, c0, c0), (c0, c0, c0))) (db := f0); rewrite ?rev_length; lia. }
      unfold vec_term, fat, round. rewrite rev_nth by lia.
      now replace (length (gp_steps proof) - S j) with (length (gp_steps proof) - 1 - j) by lia. }
    split; intros [cs [v [Hch [Hla [Hlb [Hv [E1 [E2 E3]]]]]]]]; exists cs, v;
      (assert (Hcl : length cs = length (gp_steps proof))
        by (apply round_challenges_chain in Hch; auto; apply chain_length in Hch; now rewrite rev_length in Hch));
      rewrite ?cfold1_folded in *; auto.
    - cbn [dh_commit identity] in E3. change (com_t (ca, cb, ct)) with ct in E3. rewrite Hid in E3 by auto.
      injection E3 as E3.
      destruct (common_length (length ct) (gp_steps proof)) as [|[|n]] eqn:En; try discriminate.
      cbn in E3. injection E3 as E3. repeat split; auto.
    - destruct E3 as [En Ev].
      repeat split; auto. cbn [dh_commit identity]. change (com_t (ca, cb, ct)) with ct. rewrite Hid by auto.
      rewrite En. cbn. now rewrite <- Ev.
  Qed.
End C12.
Print Assumptions C12_accepts_iff_group.
Print Assumptions C12_accepts_iff_identity.

(** both directions occur: the honest proof of C09_example is accepted, and tweaking its last message
    or the claimed value makes the answer false *)
Example C12_example :
  match ex_prove (ex_a, ex_b, pairing_sum ZPair ex_a ex_b) (ex_ka, ex_kb, tt) ex_com with
  | Ok proof =>
    ex_verify (ex_ka, ex_kb, tt) ex_com proof = Ok true /\
    ex_verify (ex_ka, ex_kb, tt) ex_com
      (mk_gipa_proof (MA := ZM) (MB := ZM) (gp_steps proof) (zq 1, snd (gp_base proof))) = Ok false /\
    ex_verify (ex_ka, ex_kb, tt) (fst ex_com, [zq 1]) proof = Ok false
  | _ => False
  end.
Proof. vm_compute. repeat split; reflexivity. Qed.

(** ** C13, C14, C15: for arbitrary schemes *)
Section C13.
  Context {R : Type} {K : field} {MA MB MT KA KB KT : module K} {OA OB OT : carrier K}.
  Variables (D : bytes -> bytes) (fuel : nat).
  Variables (LMC : dhc R MA KA OA) (RMC : dhc R MB KB OB) (IPC : dhc R MT KT OT).
  Variable ip : list MA -> list MB -> res MT.
  Notation prove_aux := (gipa_prove_with_aux LMC RMC IPC ip D fuel).

  Theorem C13_same_challenges k a b ka kb kt proof aux :
    length a = 2 ^ k -> length b = 2 ^ k -> length ka = 2 ^ k -> length kb = 2 ^ k ->
    prove_aux (a, b) (ka, kb, kt) = Ok (proof, aux) ->
    forall com, exists com', gipa_recursive_challenges D fuel com proof = Ok (com', ga_transcript aux) /\
      Forall (fun c => c <> f0) (ga_transcript aux).
  Proof.
    intros Ha Hb Hka Hkb H com.
    pose proof (prove_with_aux_inv D fuel LMC RMC IPC ip k a b ka kb kt proof aux Ha Hb Hka Hkb H)
      as [cs [Hch [_ [Ht _]]]].
    eexists. rewrite (recursive_challenges_chain D fuel com proof cs Hch), Ht. split; [reflexivity|].
    apply Forall_rev. eapply chain_nonzero; eauto.
  Qed.

  Theorem C14_folded_keys k a b ka kb kt proof aux :
    length a = 2 ^ k -> length b = 2 ^ k -> length ka = 2 ^ k -> length kb = 2 ^ k ->
    prove_aux (a, b) (ka, kb, kt) = Ok (proof, aux) ->
    let t := ga_transcript aux in
    fst (ga_ck_base aux) = big (2 ^ k) (fun i => subset_prod (map finv t) i *m at_ ka i) /\
    snd (ga_ck_base aux) = big (2 ^ k) (fun i => subset_prod t i *m at_ kb i) /\
    (** and the same is what the verifier computes *)
    gipa_final_keys ka kb t = Ok (ga_ck_base aux).
  Proof.
    intros Ha Hb Hka Hkb H t.
    pose proof (prove_with_aux_inv D fuel LMC RMC IPC ip k a b ka kb kt proof aux Ha Hb Hka Hkb H)
      as [cs [Hch [Hk [Ht [_ [_ [E3 E4]]]]]]].
    pose proof (chain_length _ _ _ _ _ Hch) as Hcl. rewrite rev_length in Hcl.
    unfold t. rewrite Ht. repeat split.
    - rewrite E3, dot_subs by (rewrite map_length, rev_length; congruence). now rewrite Hka.
    - rewrite E4, dot_subs by (rewrite rev_length; congruence). now rewrite Hkb.
    - rewrite final_keys_ok.
      + rewrite <- E3, <- E4. now destruct (ga_ck_base aux).
      + rewrite rev_length. congruence.
      + eapply pow2_nonempty; eauto.
      + apply Forall_rev. eapply chain_nonzero; eauto.
  Qed.

  (** the final messages are folded with the inverse exponents *)
  Theorem C14_folded_messages k a b ka kb kt proof aux :
    length a = 2 ^ k -> length b = 2 ^ k -> length ka = 2 ^ k -> length kb = 2 ^ k ->
    prove_aux (a, b) (ka, kb, kt) = Ok (proof, aux) ->
    let t := ga_transcript aux in
    fst (gp_base proof) = big (2 ^ k) (fun i => subset_prod t i *m at_ a i) /\
    snd (gp_base proof) = big (2 ^ k) (fun i => subset_prod (map finv t) i *m at_ b i).
  Proof.
    intros Ha Hb Hka Hkb H t.
    pose proof (prove_with_aux_inv D fuel LMC RMC IPC ip k a b ka kb kt proof aux Ha Hb Hka Hkb H)
      as [cs [Hch [Hk [Ht [E1 [E2 _]]]]]].
    pose proof (chain_length _ _ _ _ _ Hch) as Hcl. rewrite rev_length in Hcl.
    unfold t. rewrite Ht. split.
    - rewrite E1, dot_subs by (rewrite rev_length; congruence). now rewrite Ha.
    - rewrite E2, dot_subs by (rewrite map_length, rev_length; congruence). now rewrite Hb.
  Qed.

  Theorem C15_logarithmic k a b t ka kb kt com proof :
    length a = 2 ^ k -> length b = 2 ^ k -> length ka = 2 ^ k -> length kb = 2 ^ k ->
    gipa_prove LMC RMC IPC ip D fuel (a, b, t) (ka, kb, kt) com = Ok proof ->
    length (gp_steps proof) = k.
  Proof.
    intros Ha Hb Hka Hkb H. destruct com as [[ca cb] ct]. unfold gipa_prove in H.
    apply rbind_ok in H as [v [_ H]]. destruct (negb (meqb v t)); [discriminate|].
    destruct (negb (count_ones (length a) =? 1)); [discriminate|].
    apply rbind_ok in H as [ok [_ H]]. destruct (negb ok); [discriminate|].
    apply rbind_ok in H as [[pr aux] [H1 H]]. injection H as ->.
    now destruct (prove_with_aux_inv D fuel LMC RMC IPC ip k a b ka kb [kt] proof aux Ha Hb Hka Hkb H1)
      as [cs [_ [Hk _]]].
  Qed.
End C13.
Print Assumptions C13_same_challenges.
Print Assumptions C14_folded_keys.
Print Assumptions C14_folded_messages.
Print Assumptions C15_logarithmic.

Example C13_C14_example :
  match gipa_prove_with_aux (ex_L ex_env) (ex_R ex_env) ex_T (pairing_ip ZPair ex_env) toy_digest 5
          (ex_a, ex_b) (ex_ka, ex_kb, [tt]) with
  | Ok (proof, aux) =>
    match ga_transcript aux with
    | [c1; c2] =>
      zp_eqb c1 c2 = false /\
      zp_eqb (fst (ga_ck_base aux))
        (zp_add (zp_add (zp_add (zq 11) (zp_mul (zp_inv c1) (zq 12))) (zp_mul (zp_inv c2) (zq 13)))
                (zp_mul (zp_mul (zp_inv c1) (zp_inv c2)) (zq 14))) = true
    | _ => False
    end
  | _ => False
  end.
Proof. vm_compute. split; reflexivity. Qed.

(** 4 = 2^2 elements, 2 rounds *)
Example C15_example :
  map (@length zp) [ex_a; ex_b; ex_ka; ex_kb] = repeat (2 ^ 2) 4 /\
  rbind (ex_prove (ex_a, ex_b, pairing_sum ZPair ex_a ex_b) (ex_ka, ex_kb, tt) ex_com) (fun proof => Ok (length (gp_steps proof))) = Ok 2.
Proof. vm_compute. split; reflexivity. Qed.

(** ** C16: the hashed bytes are injective, for component encodings that are prefix free *)
Theorem C16_round_bytes_injective (K : field) (OA OB OT : carrier K) n n' (p p' : K)
    (c1 c2 c1' c2' : com3 OA OB OT) :
  (N.of_nat n < 2 ^ 64)%N -> (N.of_nat n' < 2 ^ 64)%N ->
  prefix_free (@fser K) -> prefix_free (@cser K OA) -> prefix_free (@cser K OB) -> prefix_free (@cser K OT) ->
  gipa_hash_input n p c1 c2 = gipa_hash_input n' p' c1' c2' ->
  n = n' /\ p = p' /\ c1 = c1' /\ c2 = c2'.
Proof. exact (gipa_hash_input_inj n n' p p' c1 c2 c1' c2'). Qed.
Print Assumptions C16_round_bytes_injective.

(** fixed-length injective encodings (points, field elements) qualify, and so do the length-prefixed
    vectors of [IdentityOutput] shorter than 2^64 *)
Theorem C16_fixed_length_encodings {A} (ser : A -> bytes) n :
  (forall a, length (ser a) = n) -> (forall a b, ser a = ser b -> a = b) -> prefix_free ser.
Proof. apply fixed_length_prefix_free. Qed.
Print Assumptions C16_fixed_length_encodings.

Theorem C16_identity_output (K : field) (OA OB : carrier K) (T : module K) n n' (p p' : K)
    (c1 c2 c1' c2' : com3 OA OB (identity_output T)) :
  (N.of_nat n < 2 ^ 64)%N -> (N.of_nat n' < 2 ^ 64)%N ->
  (forall c, In c [c1; c2; c1'; c2'] -> (N.of_nat (length (com_vec c)) < 2 ^ 64)%N) ->
  prefix_free (@fser K) -> prefix_free (@cser K OA) -> prefix_free (@cser K OB) -> prefix_free (@mser K T) ->
  gipa_hash_input n p c1 c2 = gipa_hash_input n' p' c1' c2' ->
  n = n' /\ p = p' /\ c1 = c1' /\ c2 = c2'.
Proof.
  intros Hn Hn' Hl HF HA HB HT. unfold gipa_hash_input.
  destruct c1 as [[a1 b1] t1], c2 as [[a2 b2] t2], c1' as [[a1' b1'] t1'], c2' as [[a2' b2'] t2'].
  pose proof (Hl _ (or_introl eq_refl)) as L1. pose proof (Hl _ (or_intror (or_introl eq_refl))) as L2.
  pose proof (Hl _ (or_intror (or_intror (or_introl eq_refl)))) as L3.
  pose proof (Hl _ (or_intror (or_intror (or_intror (or_introl eq_refl))))) as L4.
  cbn [com_vec snd] in L1, L2, L3, L4.
  intros E.
  apply app_same_length in E as [E1 E]; [|now rewrite !usize_be_length].
  apply usize_be_inj in E1; auto.
  apply HF in E as [-> E]. apply HA in E as [-> E]. apply HB in E as [-> E].
  apply (ser_list_prefix mser HT) in E as [-> E]; auto.
  apply HA in E as [-> E]. apply HB in E as [-> E].
  rewrite <- (app_nil_r (cser t2)), <- (app_nil_r (cser t2')) in E.
  apply (ser_list_prefix mser HT) in E as [-> _]; auto.
Qed.
Print Assumptions C16_identity_output.

Lemma zp_ser_prefix_free : prefix_free (@fser ZP).
Proof.
  apply (fixed_length_prefix_free _ 1); [reflexivity|]. intros a b [= E]. apply zp_eq.
  pose proof (zp_range a). pose proof (zp_range b). lia.
Qed.
Example C16_example : prefix_free (@fser ZP) /\ prefix_free (@cser ZP (mod_carrier ZM)) /\ prefix_free (@mser ZP ZM).
Proof. split; [|split]; exact zp_ser_prefix_free. Qed.

(** ** C17 *)
(** The challenges computed by the verifier do not depend on the commitments it is given ... *)
Theorem C17_challenges_ignore_statement {K : field} {MA MB : module K} {OA OB OT : carrier K} D fuel
    (proof : gipa_proof MA MB OA OB OT) (com com' : com3 OA OB OT) x t :
  gipa_recursive_challenges D fuel com proof = Ok (x, t) ->
  exists x', gipa_recursive_challenges D fuel com' proof = Ok (x', t).
Proof.
  intros H. apply recursive_challenges_inv in H as [cs [Hch [-> ->]]].
  exists (cfold com' (rev (gp_steps proof)) cs). now apply recursive_challenges_chain.
Qed.
Print Assumptions C17_challenges_ignore_statement.

(** ... and therefore a proof of a false statement exists for all vectors, keys and lengths above 1:
    the accepted value [t'] is chosen after the challenges. *)
Theorem C17_forged_value_refuted R (P : pairing) (E : penv) (r1 : sampler R (pG1 P)) (r2 : sampler R (pG2 P))
    D fuel k (a : list (pG1 P)) (b : list (pG2 P)) (ka : list (pG2 P)) (kb : list (pG1 P)) (kt : unitmod (pK P))
    (delta : pGT P) :
  1 <= threads E -> digest16 D ->
  rounds_end (mod_carrier (pGT P)) (mod_carrier (pGT P)) (identity_output (pGT P)) D fuel ->
  length a = 2 ^ S k -> length b = 2 ^ S k -> length ka = 2 ^ S k -> length kb = 2 ^ S k -> delta <> m0 ->
  exists proof t', t' <> pairing_sum P a b /\
    gipa_verify (afgho_g1 P E r2) (afgho_g2 P E r1) (identity (pGT P)) (pairing_ip P E) D fuel
      (ka, kb, kt) (pairing_sum P a ka, pairing_sum P kb b, [t']) proof = Ok true.
Proof.
  intros HE HD HL Ha Hb Hka Hkb Hd.
  destruct (gipa_forge_accepted D fuel mid mid idout (phi_g1 P) (pr_e P) psi_id (pr_e P)
              (afgho_g1 P E r2) (afgho_g2 P E r1) (identity (pGT P)) (pairing_ip P E)
              (afgho_g1_law P E HE r2) (afgho_g2_law P E HE r1) (identity_law _) (pairing_ip_law P E HE)
              k a b ka kb kt delta (rounds_end_live D fuel HD HL) Hd Ha Hb Hka Hkb) as [proof [x [Hx Hv]]].
  exists proof, x. unfold psi_id in Hx.
  rewrite <- dot_pairing_sum by congruence. split; [exact Hx|].
  rewrite <- Hv. unfold mid, idout, phi_g1. do 2 f_equal.
  rewrite <- !dot_pairing_sum by congruence. now rewrite dot_flip.
Qed.
Print Assumptions C17_forged_value_refuted.

(** The same for every lawful choice of inner product and commitments. *)
Theorem C17_forged_commitment_refuted {R : Type} {K : field} {MA MB MT KA KB KT : module K} {OA OB OT : carrier K}
    (D : bytes -> bytes) (fuel : nat)
    {XA XB XT : module K} (dA : XA -> OA) (dB : XB -> OB) (dT : XT -> OT)
    (fA : KA -> MA -> XA) (fB : KB -> MB -> XB) (fT : KT -> MT -> XT) (th : MA -> MB -> MT)
    (LMC : dhc R MA KA OA) (RMC : dhc R MB KB OB) (IPC : dhc R MT KT OT) (ip : list MA -> list MB -> res MT)
    (LA : lin_commit LMC dA fA) (LB : lin_commit RMC dB fB) (LT : ip_commit IPC dT fT) (LI : lin_ip ip th)
    k a b t ka kb kt ca cb ct (delta : XT) :
  digest16 D -> rounds_end OA OB OT D fuel -> delta <> m0 ->
  length a = 2 ^ S k -> length b = 2 ^ S k -> length ka = 2 ^ S k -> length kb = 2 ^ S k ->
  honest_com LMC RMC IPC ip ka kb kt a b t ca cb ct ->
  exists proof ct', ct' <> ct /\ gipa_verify LMC RMC IPC ip D fuel (ka, kb, kt) (ca, cb, ct') proof = Ok true.
Proof.
  intros HD HL Hd Ha Hb Hka Hkb Hc.
  apply (honest_com_inv dA dB dT fA fB fT th LMC RMC IPC ip LA LB LT LI) in Hc as [-> Hc]; try congruence.
  injection Hc as -> -> ->.
  destruct (gipa_forge_accepted D fuel dA dB dT fA fB fT th LMC RMC IPC ip LA LB LT LI
              k a b ka kb kt delta (rounds_end_live D fuel HD HL) Hd Ha Hb Hka Hkb) as [proof [x [Hx Hv]]].
  exists proof, (dT x). split; [|exact Hv]. intros E. apply (ic_inj _ _ _ LT) in E. contradiction.
Qed.
Print Assumptions C17_forged_commitment_refuted.

(** What the challenges do bind: all the rounds so far.  (C17 in full would add the statement.) *)
Theorem C17_bind_rounds_partial (K : field) (OA OB OT : carrier K) D fuel (HD : digest16 D)
    (prev prev' : K) (s s' : com3 OA OB OT * com3 OA OB OT) c ci :
  prefix_free (@fser K) -> prefix_free (@cser K OA) -> prefix_free (@cser K OB) -> prefix_free (@cser K OT) ->
  (N.of_nat fuel < 2 ^ 64)%N ->
  gipa_challenge D fuel 0 prev (fst s) (snd s) = Ok (c, ci) ->
  gipa_challenge D fuel 0 prev' (fst s') (snd s') = Ok (c, ci) ->
  (** same challenge: same inputs, or two different byte strings give the same 128-bit value *)
  (prev = prev' /\ s = s') \/
  (exists x y, x <> y /\ f_ofN (f := K) (from_be_bytes (firstn 16 (D x))) = f_ofN (from_be_bytes (firstn 16 (D y)))).
Proof.
  intros HF HA HB HT Hfu H H'.
  destruct (gipa_challenge_spec_from D prev (fst s) (snd s) HD fuel 0) as [[m [v [Hm [Hv [_ E]]]]]|[_ E]]; [|congruence].
  destruct (gipa_challenge_spec_from D prev' (fst s') (snd s') HD fuel 0) as [[m' [v' [Hm' [Hv' [_ E']]]]]|[_ E']]; [|congruence].
  rewrite E in H. rewrite E' in H'. assert (v = v') by congruence. subst v'.
  unfold gipa_usable in Hv, Hv'.
  destruct (feqb _ f0) in Hv; [discriminate|]. destruct (feqb _ f0) in Hv'; [discriminate|].
  injection Hv as Hv. injection Hv' as Hv'.
  destruct (list_eq_dec N.eq_dec (gipa_hash_input m prev (fst s) (snd s)) (gipa_hash_input m' prev' (fst s') (snd s')))
    as [Eq|Ne].
  - left. apply gipa_hash_input_inj in Eq as [_ [-> [E1 E2]]]; auto; try (unfold u64_bound; lia).
    split; [reflexivity|]. destruct s, s'; cbn in *; congruence.
  - right. do 2 eexists. split; [exact Ne|]. exact (eq_trans Hv (eq_sym Hv')).
Qed.
Print Assumptions C17_bind_rounds_partial.

(** A concrete forgery, found by running the attack: [2;3] . [5;7] = 31, accepted as something else. *)
Example C17_forged_example :
  exists proof t', zp_eqb t' (pairing_sum ZPair (zl [2; 3]%Z) (zl [5; 7]%Z)) = false /\
    ex_verify (zl [11; 12]%Z, zl [21; 22]%Z, tt)
      (pairing_sum ZPair (zl [2; 3]%Z) (zl [11; 12]%Z), pairing_sum ZPair (zl [21; 22]%Z) (zl [5; 7]%Z), [t'])
      proof = Ok true.
Proof.
  (* com_1 = (e(a2,ka1), e(kb2,b1), a2 b1 + 1), com_2 = (e(a1,ka2), e(kb1,b2), a1 b2) *)
  pose (c1 := (zq 33, zq 110, [zq (15 + 1)]) : com3 (mod_carrier ZM) (mod_carrier ZM) (identity_output ZM)).
  pose (c2 := (zq 24, zq 147, [zq 14]) : com3 (mod_carrier ZM) (mod_carrier ZM) (identity_output ZM)).
  pose (c := match gipa_challenge (K := ZP) toy_digest 5 0 (zq 0) c1 c2 with Ok (c, _) => c | _ => zq 0 end).
  exists (mk_gipa_proof (MA := ZM) (MB := ZM) [(c1, c2)]
            (zp_add (zq 2) (zp_mul c (zq 3)), zp_add (zq 5) (zp_mul (zp_inv c) (zq 7)))),
         (zp_sub (zq 31) c).
  split; vm_compute; reflexivity.
Qed.

(** ** C19 *)
Lemma Ok_inj {A} (x y : A) : Ok x = Ok y -> x = y.
Proof. congruence. Qed.

(** Group-valued inner-product commitments: at most one is accepted with a given proof. *)
Theorem C19_unique_group {R} {K : field} {MA MB MT KA KB KT : module K} {OA OB : carrier K} {XT : module K}
    (LMC : dhc R MA KA OA) (RMC : dhc R MB KB OB) (IPC : dhc R MT KT (mod_carrier XT)) ip D fuel
    ka kb kt ca cb ca' cb' (ct ct' : XT) proof :
  digest16 D ->
  gipa_verify LMC RMC IPC ip D fuel (ka, kb, kt) (ca, cb, ct) proof = Ok true ->
  gipa_verify LMC RMC IPC ip D fuel (ka, kb, kt) (ca', cb', ct') proof = Ok true -> ct = ct'.
Proof.
  intros HD H H'. apply gipa_verify_api in H, H'; auto.
  destruct H as [cs [v [Hch [_ [_ [Hv [_ [_ E]]]]]]]].
  destruct H' as [cs' [v' [Hch' [_ [_ [Hv' [_ [_ E']]]]]]]].
  apply round_challenges_chain in Hch, Hch'; auto.
  assert (cs' = cs) by (eapply chain_fun; eauto). subst cs'.
  assert (v' = v) by congruence. subst v'. pose proof (Ok_inj _ _ (eq_trans (eq_sym E) E')) as Ef.
  apply cfold1_inj in Ef; [exact Ef|]. eapply chain_length; eauto.
Qed.
Print Assumptions C19_unique_group.

(** [IdentityCommitment]: the first element is determined, and everything if one element is given. *)
Theorem C19_unique_identity_partial {R} {K : field} {MA MB MT KA KB : module K} {XA XB : module K}
    (LMC : dhc R MA KA (mod_carrier XA)) (RMC : dhc R MB KB (mod_carrier XB)) ip D fuel
    ka kb kt ca cb ca' cb' (ct ct' : list MT) proof :
  digest16 D ->
  gipa_verify LMC RMC (identity MT) ip D fuel (ka, kb, kt) (ca, cb, ct) proof = Ok true ->
  gipa_verify LMC RMC (identity MT) ip D fuel (ka, kb, kt) (ca', cb', ct') proof = Ok true ->
  (exists t l l', ct = t :: l /\ ct' = t :: l') /\ (length ct = 1 -> length ct' = 1 -> ct = ct').
Proof.
  intros HD H H'. apply C12_accepts_iff_identity in H, H'; auto.
  destruct H as [cs [v [Hch [_ [_ [Hv [_ [_ [En E]]]]]]]]].
  destruct H' as [cs' [v' [Hch' [_ [_ [Hv' [_ [_ [En' E']]]]]]]]].
  apply round_challenges_chain in Hch, Hch'; auto.
  assert (cs' = cs) by (eapply chain_fun; eauto). subst cs'.
  assert (Evv : v' = v) by congruence. rewrite Evv in E'. clear Evv.
  pose proof (common_length_le (gp_steps proof) (length ct)).
  pose proof (common_length_le (gp_steps proof) (length ct')).
  destruct ct as [|t l]; [cbn in *; lia|]. destruct ct' as [|t' l']; [cbn in *; lia|].
  assert (t = t').
  { rewrite E in E'. unfold folded in E'. rewrite (madd_comm K MT (at_ (t :: l) 0)), (madd_comm K MT (at_ (t' :: l') 0)) in E'.
    now apply madd_cancel_l in E'. }
  subst t'. split; [eauto|]. destruct l, l'; cbn; try discriminate; auto.
Qed.
Print Assumptions C19_unique_identity_partial.

(** rounds made by the prover carry one-element vectors *)
Lemma prove_loop_singletons {R} {K : field} {MA MB MT KA KB : module K} {OA OB : carrier K}
    (LMC : dhc R MA KA OA) (RMC : dhc R MB KB OB) (ip : list MA -> list MB -> res MT) D fuel :
  forall n a b ka kb kt S T base ckb S' T',
  Forall (fun s => length (com_vec (fst s)) = 1 /\ length (com_vec (snd s)) = 1) S ->
  gipa_prove_loop LMC RMC (identity MT) ip D fuel n a b ka kb kt S T = Ok (base, ckb, S', T') ->
  Forall (fun s => length (com_vec (fst s)) = 1 /\ length (com_vec (snd s)) = 1) S'.
Proof.
  assert (Hc : forall ka a kb b kt c, gipa_commit3 LMC RMC (identity MT) ip ka a kb b kt = Ok c -> length (com_vec c) = 1).
  { intros ka a kb b kt c H. unfold gipa_commit3 in H. apply rbind_ok in H as [x [_ H]].
    apply rbind_ok in H as [y [_ H]]. apply rbind_ok in H as [v [_ H]]. apply rbind_ok in H as [t [Ht H]].
    cbn in Ht. injection Ht as <-. injection H as <-. reflexivity. }
  induction n as [|n IH]; intros a b ka kb kt S T base ckb S' T' HS H; cbn [gipa_prove_loop] in H;
    (destruct (length a =? 1);
      [ repeat (apply rbind_ok in H as [? [_ H]]); injection H as <- <- <- <-; exact HS |]).
  - discriminate.
  - do 8 (apply rbind_ok in H as [? [_ H]]).
    apply rbind_ok in H as [com1 [H1 H]]. apply rbind_ok in H as [com2 [H2 H]].
    apply rbind_ok in H as [[c ci] [_ H]]. apply IH in H; auto.
    apply Forall_app. split; [exact HS|]. constructor; [|constructor]. cbn [fst snd]. split; eapply Hc; eauto.
Qed.

(** Trailing elements are ignored: an honest proof is accepted for the value followed by anything. *)
Theorem C19_trailing_elements_refuted R (P : pairing) (E : penv) (r1 : sampler R (pG1 P)) (r2 : sampler R (pG2 P))
    D fuel k (a : list (pG1 P)) (b : list (pG2 P)) (ka : list (pG2 P)) (kb : list (pG1 P)) (kt : unitmod (pK P))
    (junk : list (pGT P)) :
  1 <= threads E -> digest16 D ->
  rounds_end (mod_carrier (pGT P)) (mod_carrier (pGT P)) (identity_output (pGT P)) D fuel ->
  length a = 2 ^ S k -> length b = 2 ^ S k -> length ka = 2 ^ S k -> length kb = 2 ^ S k ->
  let verify t proof := gipa_verify (afgho_g1 P E r2) (afgho_g2 P E r1) (identity (pGT P)) (pairing_ip P E) D fuel
      (ka, kb, kt) (pairing_sum P a ka, pairing_sum P kb b, t) proof in
  exists proof, verify [pairing_sum P a b] proof = Ok true /\ verify (pairing_sum P a b :: junk) proof = Ok true.
Proof.
  intros HE HD HL Ha Hb Hka Hkb verify.
  destruct (C09_pairing_instance R P E E r1 r2 D fuel (S k) a b ka kb kt HE HE HD HL Ha Hb Hka Hkb) as [proof [Hp Hv]].
  exists proof. split; [exact Hv|]. unfold verify.
  apply (C12_accepts_iff_identity D fuel) in Hv; auto. apply (C12_accepts_iff_identity D fuel); auto.
  destruct Hv as [cs [v [Hch [Hla [Hlb [Hip [E1 [E2 [En Ev]]]]]]]]].
  exists cs, v. repeat split; auto.
  assert (Hs : Forall (fun s => length (com_vec (fst s)) = 1 /\ length (com_vec (snd s)) = 1) (gp_steps proof)).
  { unfold gipa_prove in Hp. apply rbind_ok in Hp as [w [_ H]].
    destruct (negb (meqb w (pairing_sum P a b))); [discriminate|].
    destruct (negb (count_ones (length a) =? 1)); [discriminate|].
    apply rbind_ok in H as [ok [_ H]]. destruct (negb ok); [discriminate|].
    apply rbind_ok in H as [[pr aux] [H H']]. injection H' as ->. unfold gipa_prove_with_aux in H.
    apply rbind_ok in H as [? [_ H]]. apply rbind_ok in H as [[[[base ckb] st] tr] [H H']].
    injection H' as <- _. cbn [gp_steps]. apply Forall_rev.
    eapply prove_loop_singletons; [|exact H]. constructor. }
  assert (Hlen : length (gp_steps proof) = S k).
  { apply (pow2_inj (length (gp_steps proof)) (S k)). congruence. }
  assert (Hone : forall l, Forall (fun s : com3 (mod_carrier (pGT P)) (mod_carrier (pGT P)) (identity_output (pGT P)) *
                                com3 (mod_carrier (pGT P)) (mod_carrier (pGT P)) (identity_output (pGT P)) =>
                  length (com_vec (fst s)) = 1 /\ length (com_vec (snd s)) = 1) l ->
            forall n, n = 1 -> common_length n l = 1).
  { induction l as [|s l IH]; intros HF n ->; [reflexivity|]. inversion HF as [|? ? [L1 L2] HF']; subst.
    cbn [common_length]. rewrite L1, L2. apply IH; auto. }
  destruct (gp_steps proof) as [|s l]; [discriminate|]. inversion Hs as [|? ? [L1 L2] HF']; subst.
  cbn [common_length]. rewrite L1, L2. apply Hone; auto. cbn [length]. lia.
Qed.
Print Assumptions C19_trailing_elements_refuted.

Example C19_example :
  match ex_prove (ex_a, ex_b, pairing_sum ZPair ex_a ex_b) (ex_ka, ex_kb, tt) ex_com with
  | Ok proof => ex_verify (ex_ka, ex_kb, tt) (fst ex_com, [pairing_sum ZPair ex_a ex_b; zq 42]) proof = Ok true
  | _ => False
  end.
Proof. vm_compute. reflexivity. Qed.
(** a group-valued inner-product commitment: Pedersen on the scalar inner product *)
Example C19_group_example :
  let P := pedersen ZM ex_rand in
  match gipa_prove P P P (scalar_ip ex_env) toy_digest 5
          (zl [3; 1]%Z, zl [5; 9]%Z, zq 24) (zl [11; 12]%Z, zl [21; 22]%Z, zq 2) (zq 45, zq 303, zq 48) with
  | Ok proof =>
    gipa_verify P P P (scalar_ip ex_env) toy_digest 5 (zl [11; 12]%Z, zl [21; 22]%Z, zq 2) (zq 45, zq 303, zq 48) proof = Ok true /\
    gipa_verify P P P (scalar_ip ex_env) toy_digest 5 (zl [11; 12]%Z, zl [21; 22]%Z, zq 2) (zq 45, zq 303, zq 49) proof = Ok false
  | _ => False
  end.
Proof. vm_compute. split; reflexivity. Qed.

(** ** C20 *)
(** The GIPA loop: with [fuel] iterations allowed it returns the inverse of the value of the first
    usable nonce, and fails to return exactly when no nonce below [fuel] is usable. *)
Theorem C20_gipa_first_usable (K : field) (OA OB OT : carrier K) D fuel (prev : K) (c1 c2 : com3 OA OB OT) :
  digest16 D ->
  (exists n v, n < fuel /\ first_usable (round_value D prev c1 c2) n v /\
               gipa_challenge D fuel 0 prev c1 c2 = Ok (finv v, v)) \/
  ((forall n, n < fuel -> round_value D prev c1 c2 n = None) /\ gipa_challenge D fuel 0 prev c1 c2 = Loop).
Proof.
  intros HD. destruct (gipa_challenge_spec_from D prev c1 c2 HD fuel 0) as [[m [v [Hm [Hv [Hlt E]]]]]|[Hn E]].
  - left. exists m, v. split; [lia|]. split; [|exact E]. split; [exact Hv|]. intros i Hi. apply Hlt. lia.
  - right. split; [|exact E]. intros i Hi. apply Hn. lia.
Qed.
Print Assumptions C20_gipa_first_usable.

(** The returned pair: the second component is the 128-bit integer, the first its inverse. *)
Theorem C20_gipa_challenge_shape (K : field) (OA OB OT : carrier K) D fuel (prev : K) (c1 c2 : com3 OA OB OT) c ci :
  (forall b x, In x (D b) -> (x < 256)%N) ->
  gipa_challenge D fuel 0 prev c1 c2 = Ok (c, ci) ->
  c *f ci = f1 /\ exists n, (n < 2 ^ 128)%N /\ ci = f_ofN n.
Proof.
  intros HB H. pose proof (gipa_challenge_ok_inv D fuel 0 prev c1 c2 c ci H) as [Hn [Hc _]].
  split; [subst c; apply (Finv_l (f_theory K)); exact Hn|].
  assert (Hlen : forall n, gipa_challenge D fuel n prev c1 c2 = Ok (c, ci) ->
            exists bs, length bs = 16 /\ (forall x, In x bs -> (x < 256)%N) /\ ci = f_ofN (from_be_bytes bs)).
  { clear H. induction fuel; intros n H; [discriminate|]. cbn [gipa_challenge] in H.
    apply rbind_ok in H as [f16 [Hs H]]. unfold finverse in H.
    destruct (feqb (f_ofN (from_be_bytes f16)) f0); [eapply IHfuel; exact H|]. assert (Eci : ci = f_ofN (from_be_bytes f16)) by congruence.
    exists f16. unfold slice_to in Hs.
    destruct (16 <=? length (D (gipa_hash_input n prev c1 c2))) eqn:El; [|discriminate].
    apply Ok_inj in Hs. subst f16. apply Nat.leb_le in El. split; [rewrite firstn_length; lia|]. split; [|exact Eci].
    intros x Hx. apply (HB (gipa_hash_input n prev c1 c2)). rewrite <- (firstn_skipn 16). apply in_or_app. now left. }
  destruct (Hlen 0 H) as [bs [Hl [Hb Hci]]]. exists (from_be_bytes bs). split; [|exact Hci].
  assert (Hbd : forall bs acc, (forall x, In x bs -> (x < 256)%N) ->
            (fold_left (fun acc x => acc * 256 + x) bs acc < (acc + 1) * 256 ^ N.of_nat (length bs))%N).
  { clear. induction bs as [|x bs IH]; intros acc Hb; [cbn; lia|]. cbn [fold_left length].
    rewrite Nat2N.inj_succ, N.pow_succ_r'.
    specialize (IH (acc * 256 + x)%N ltac:(intros; apply Hb; now right)). pose proof (Hb x (or_introl eq_refl)).
    assert ((acc * 256 + x + 1) * 256 ^ N.of_nat (length bs) <= (256 * acc + 256) * 256 ^ N.of_nat (length bs))%N
      by (apply N.mul_le_mono_r; lia). lia. }
  specialize (Hbd bs 0%N Hb). rewrite Hl in Hbd. unfold from_be_bytes. exact Hbd.
Qed.
Print Assumptions C20_gipa_challenge_shape.

(** The TIPA / Groth16 loop: [from_random_bytes] of the digest of nonce and payload. *)
Theorem C20_rand_first_decodable (K : field) D fuel (payload : bytes) :
  (exists n (v : K), n < fuel /\ first_usable (fun n => f_rand (f := K) (D (usize_be n ++ payload))) n v /\
                     rand_challenge D fuel 0 payload = Ok v) \/
  ((forall n, n < fuel -> f_rand (f := K) (D (usize_be n ++ payload)) = None) /\
   rand_challenge (K := K) D fuel 0 payload = Loop).
Proof.
  destruct (rand_challenge_spec_from (K := K) D payload fuel 0) as [[m [v [Hm [Hv [Hlt E]]]]]|[Hn E]].
  - left. exists m, v. split; [lia|]. split; [|exact E]. split; [exact Hv|]. intros i Hi. apply Hlt. lia.
  - right. split; [|exact E]. intros i Hi. apply Hn. lia.
Qed.
Print Assumptions C20_rand_first_decodable.

(** More fuel never changes an answer. *)
Theorem C20_fuel_irrelevant (K : field) (OA OB OT : carrier K) D fuel fuel' (prev : K) (c1 c2 : com3 OA OB OT) payload :
  digest16 D -> fuel <= fuel' ->
  (gipa_challenge D fuel 0 prev c1 c2 <> Loop -> gipa_challenge D fuel' 0 prev c1 c2 = gipa_challenge D fuel 0 prev c1 c2) /\
  (rand_challenge (K := K) D fuel 0 payload <> Loop ->
   rand_challenge (K := K) D fuel' 0 payload = rand_challenge (K := K) D fuel 0 payload).
Proof.
  intros HD Hle. split; intros Hne.
  - destruct (C20_gipa_first_usable K OA OB OT D fuel prev c1 c2 HD) as [[n [v [Hn [[Hv Hf] E]]]]|[_ E]]; [|congruence].
    destruct (C20_gipa_first_usable K OA OB OT D fuel' prev c1 c2 HD) as [[n' [v' [Hn' [[Hv' Hf'] E']]]]|[H' _]].
    + rewrite E, E'. assert (n = n'); [|subst; congruence].
      destruct (Nat.lt_trichotomy n n') as [Hl|[Hl|Hl]]; auto; [specialize (Hf' n Hl) | specialize (Hf n' Hl)]; congruence.
    + specialize (H' n ltac:(lia)). congruence.
  - destruct (C20_rand_first_decodable K D fuel payload) as [[n [v [Hn [[Hv Hf] E]]]]|[_ E]]; [|congruence].
    destruct (C20_rand_first_decodable K D fuel' payload) as [[n' [v' [Hn' [[Hv' Hf'] E']]]]|[H' _]].
    + rewrite E, E'. assert (n = n'); [|subst; congruence].
      destruct (Nat.lt_trichotomy n n') as [Hl|[Hl|Hl]]; auto; [specialize (Hf' n Hl) | specialize (Hf n' Hl)]; congruence.
    + specialize (H' n ltac:(lia)). congruence.
Qed.
Print Assumptions C20_fuel_irrelevant.

(** the loops do iterate: with this digest nonces 0 and 1 are rejected, nonce 2 gives a value *)
Definition third_digest (b : bytes) : bytes :=
  match nth 7 b 0%N with 0%N | 1%N => 7%N :: repeat 0%N 31 | _ => repeat 0%N 15 ++ [5%N] ++ repeat 0%N 16 end.
Definition third_digest' (b : bytes) : bytes :=
  match nth 7 b 0%N with 0%N | 1%N => repeat 0%N 32 | _ => repeat 0%N 15 ++ [5%N] ++ repeat 0%N 16 end.
Example C20_gipa_example :
  gipa_challenge (K := ZP) (OA := mod_carrier ZM) (OB := mod_carrier ZM) (OT := mod_carrier ZM) third_digest' 9 0 (zq 3)
    (zq 1, zq 2, zq 3) (zq 4, zq 5, zq 6) = Ok (zp_inv (zq 5), zq 5) /\
  gipa_challenge (K := ZP) (OA := mod_carrier ZM) (OB := mod_carrier ZM) (OT := mod_carrier ZM) third_digest' 2 0 (zq 3)
    (zq 1, zq 2, zq 3) (zq 4, zq 5, zq 6) = Loop.
Proof. split; vm_compute; reflexivity. Qed.
Example C20_rand_example :
  match rand_challenge (K := ZP) third_digest 9 0 [1%N; 2%N] with Ok _ => True | _ => False end /\
  rand_challenge (K := ZP) third_digest 2 0 [1%N; 2%N] = Loop.
Proof. split; vm_compute; [exact I|reflexivity]. Qed.

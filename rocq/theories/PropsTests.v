(** C81: the unit tests of the crates pass whatever the seed, for every size of the right form. *)
Require Import List Arith NArith ZArith Lia Bool Field.
Import ListNotations.
Require Import Verif.Outcome Verif.Algebra Verif.Zp Verif.Rust Verif.InnerProducts Verif.Commitments
  Verif.Poly Verif.Gipa Verif.Tipa Verif.Ssm Verif.Floats Verif.PolyCommit Verif.Transparent Verif.Rng Verif.Sipp Verif.Bench Verif.Tests
  Verif.Spec Verif.ListFacts Verif.RustFacts Verif.InnerProductFacts Verif.CommitFacts
  Verif.GipaFacts Verif.GipaComplete Verif.GipaTop Verif.KeyFacts Verif.TipaFacts Verif.SsmFacts Verif.PolyFacts Verif.SerFacts Verif.SippFacts
  Verif.PropsBase Verif.PropsGipa Verif.PropsTipa Verif.PropsSsm Verif.PropsPoly Verif.PropsSipp Verif.PropsGroth Verif.PropsBench
  Verif.PropsDegrees Verif.PropsUnivariate.

(** The test passes, unless a challenge loop needs more iterations than the model's bound. *)
Definition passes (test : res unit) : Prop := test = Loop \/ test = Ok tt.

(** ** commitments *)
Section CommitTest.
  Context {R : Type} {K : field} {M Ky : module K} {O : carrier K}.
  Variables (C : dhc R M Ky O) (rand_k : sampler R Ky) (rand_m : sampler R M) (value : list Ky -> list M -> O).
  Hypothesis Hsetup : forall rng n, dh_setup C rng n = Ok (random_generators rand_k rng n).
  Hypothesis Hcommit : forall k m, length k = length m -> dh_commit C k m = Ok (value k m).
  Hypothesis Hreject : forall k m, length k <> length m -> exists e, dh_commit C k m = Err e.

  (** The keys, the message and the other message the test draws. *)
  Definition drawn_keys (rng : R) (n : nat) : list Ky := fst (random_generators rand_k rng n).
  Definition drawn_messages (rng : R) (n : nat) : list M * list M :=
    fst (sample_pairs rand_m rand_m (snd (random_generators rand_k rng n)) n).

  Lemma commit_test_outcome (rng : R) n :
    let ck := drawn_keys rng n in let '(m, w) := drawn_messages rng n in
    length ck = n /\ length m = n /\ length w = n /\
    (value ck m <> value ck w -> commit_test C rand_m rng n = Ok tt) /\
    (value ck m = value ck w -> commit_test C rand_m rng n = Panic).
  Proof.
    unfold drawn_keys, drawn_messages, commit_test. rewrite Hsetup. pose proof (generators_length rand_k n rng) as Hk.
    destruct (random_generators rand_k rng n) as [ck rng1]. cbn [fst snd ok_unwrap rbind] in *.
    destruct (sample_pairs_length rand_m rand_m n rng1) as [Hm Hw].
    destruct (sample_pairs rand_m rand_m rng1 n) as [[m w] rng2]. cbn [fst snd] in *.
    split; [exact Hk|]. split; [exact Hm|]. split; [exact Hw|].
    unfold dh_verify. rewrite (Hcommit ck m), (Hcommit ck w) by congruence. cbn [ok_unwrap rbind].
    rewrite (proj2 (ceqb_spec _ O (value ck m) _) eq_refl). cbn [rassert rbind].
    destruct (rand_m rng2) as [x rng3].
    destruct (Hreject ck (m ++ [x])) as [e He]. { rewrite app_length. cbn [length]. lia. }
    rewrite He. cbn [rbind assert_is_err]. split; intros Hv.
    - destruct (ceqb (value ck w) (value ck m)) eqn:Eq; [|reflexivity]. apply ceqb_spec in Eq. now rewrite Eq in Hv.
    - rewrite (proj2 (ceqb_spec _ O (value ck w) (value ck m)) (eq_sym Hv)). reflexivity.
  Qed.
End CommitTest.

(** The tests pass exactly if the two random messages do not have the same commitment (C07 says what a collision
    means). *)
Theorem C81_pedersen_test R (K : field) (G : module K) (rg : sampler R G) (rs : sampler R K) (rng : R) n :
  let ck := drawn_keys rg rng n in let '(m, w) := drawn_messages rg (rs : sampler R (fmod K)) rng n in
  length ck = n /\ length m = n /\ length w = n /\
  (msm_sum ck m <> msm_sum ck w -> commit_test (pedersen G rg) rs rng n = Ok tt) /\
  (msm_sum ck m = msm_sum ck w -> commit_test (pedersen G rg) rs rng n = Panic).
Proof.
  refine (commit_test_outcome (pedersen G rg) rg (rs : sampler R (fmod K)) msm_sum _ _ _ rng n).
  - reflexivity.
  - intros k m H. destruct (C02_multiexp_outcome K G k m) as [[H' _]|[_ H']]; [contradiction|exact H'].
  - intros k m H. destruct (C02_multiexp_outcome K G k m) as [[_ H']|[H' _]]; [eexists; exact H'|contradiction].
Qed.
Theorem C81_afgho_g1_test R (P : pairing) E (r1 : sampler R (pG1 P)) (r2 : sampler R (pG2 P)) (rng : R) n : 1 <= threads E ->
  let ck := drawn_keys r2 rng n in let '(m, w) := drawn_messages r2 r1 rng n in
  length ck = n /\ length m = n /\ length w = n /\
  (pairing_sum P m ck <> pairing_sum P w ck -> commit_test (afgho_g1 P E r2) r1 rng n = Ok tt) /\
  (pairing_sum P m ck = pairing_sum P w ck -> commit_test (afgho_g1 P E r2) r1 rng n = Panic).
Proof.
  intros HE. refine (commit_test_outcome (O := mod_carrier (pGT P)) (afgho_g1 P E r2) r2 r1 (fun k m => pairing_sum P m k) _ _ _ rng n).
  - reflexivity.
  - intros k m H. now apply C01_pairing_inner_product.
  - intros k m H. destruct (C02_pairing_outcome P E m k HE) as [[_ H']|[H' _]]; [eexists; exact H'|congruence].
Qed.
Theorem C81_afgho_g2_test R (P : pairing) E (r1 : sampler R (pG1 P)) (r2 : sampler R (pG2 P)) (rng : R) n : 1 <= threads E ->
  let ck := drawn_keys r1 rng n in let '(m, w) := drawn_messages r1 r2 rng n in
  length ck = n /\ length m = n /\ length w = n /\
  (pairing_sum P ck m <> pairing_sum P ck w -> commit_test (afgho_g2 P E r1) r2 rng n = Ok tt) /\
  (pairing_sum P ck m = pairing_sum P ck w -> commit_test (afgho_g2 P E r1) r2 rng n = Panic).
Proof.
  intros HE. refine (commit_test_outcome (O := mod_carrier (pGT P)) (afgho_g2 P E r1) r1 r2 (fun k m => pairing_sum P k m) _ _ _ rng n).
  - reflexivity.
  - intros k m H. now apply C01_pairing_inner_product.
  - intros k m H. destruct (C02_pairing_outcome P E k m HE) as [[_ H']|[H' _]]; [eexists; exact H'|congruence].
Qed.
Print Assumptions C81_pedersen_test.
Print Assumptions C81_afgho_g1_test.
Print Assumptions C81_afgho_g2_test.

(** ** GIPA *)
Definition draws_lengths {R A B} (draw : R -> nat -> list A * list B * R) : Prop :=
  forall rng n, length (fst (fst (draw rng n))) = n /\ length (snd (fst (draw rng n))) = n.
Lemma sample_pairs_draws {R A B} (ra : sampler R A) (rb : sampler R B) : draws_lengths (sample_pairs ra rb).
Proof. intros rng n. apply sample_pairs_length. Qed.
Lemma sample_both_draws {R A B} (ra : sampler R A) (rb : sampler R B) : draws_lengths (sample_both ra rb).
Proof.
  intros rng n. unfold sample_both. pose proof (generators_length ra n rng) as Ha.
  destruct (random_generators ra rng n) as [a rng1]. pose proof (generators_length rb n rng1) as Hb.
  destruct (random_generators rb rng1 n) as [b rng2]. auto.
Qed.

Section GipaTests.
  Context {R : Type} {K : field} {MA MB MT KA KB KT : module K} {OA OB OT : carrier K}.
  Variables (D : bytes -> bytes) (fuel : nat).
  Context {XA XB XT : module K} (dA : XA -> OA) (dB : XB -> OB) (dT : XT -> OT).
  Context (fA : KA -> MA -> XA) (fB : KB -> MB -> XB) (fT : KT -> MT -> XT) (th : MA -> MB -> MT).
  Variables (LMC : dhc R MA KA OA) (RMC : dhc R MB KB OB) (IPC : dhc R MT KT OT).
  Variable ip : list MA -> list MB -> res MT.
  Hypothesis HD : digest16 D.
  Context (LA : lin_commit LMC dA fA) (LB : lin_commit RMC dB fB) (LT : ip_commit IPC dT fT) (LI : lin_ip ip th).
  Context (TA : setup_total LMC) (TB : setup_total RMC) (TT : setup_total IPC).

  Lemma gipa_test_passes draw rng k : draws_lengths draw ->
    passes (gipa_test LMC RMC IPC ip D fuel draw rng (2 ^ k)).
  Proof using All.
    intros Hdraw. unfold gipa_test, passes.
    destruct (C08_gipa_setup R K MA MB MT KA KB KT OA OB OT LMC RMC IPC rng (2 ^ k) TA TB TT) as (ka & kb & kt & rng1 & -> & Hka & Hkb & _).
    cbn [ok_unwrap rbind]. destruct (Hdraw rng1 (2 ^ k)) as [Hl Hr]. destruct (draw rng1 (2 ^ k)) as [[l r] rng2]. cbn [fst snd] in Hl, Hr.
    rewrite (lc_commit _ _ _ LA) by congruence. cbn [ok_unwrap rbind].
    rewrite (lc_commit _ _ _ LB) by congruence. cbn [ok_unwrap rbind].
    rewrite (li_ip _ _ LI) by congruence. cbn [ok_unwrap rbind].
    rewrite (ic_commit _ _ _ LT). cbn [ok_unwrap rbind].
    assert (HC : honest_com LMC RMC IPC ip ka kb kt l r (dot th l r) (dA (dot fA ka l)) (dB (dot fB kb r)) (dT (fT kt (dot th l r)))).
    { repeat split; [apply (lc_commit _ _ _ LA); congruence | apply (lc_commit _ _ _ LB); congruence
                    | apply (li_ip _ _ LI); congruence | apply (ic_commit _ _ _ LT)]. }
    destruct (C09_gipa_complete D fuel dA dB dT fA fB fT th LMC LMC RMC RMC IPC IPC ip ip HD LA LB LT LI LA LB LT LI
                k l r _ ka kb kt _ _ _ Hl Hr Hka Hkb HC) as [E1|[proof [E1 E2]]]; rewrite E1; cbn [ok_unwrap rbind]; [now left|].
    rewrite E2. now right.
  Qed.
End GipaTests.

Section TipaTests.
  Context {R : Type} {P : pairing} {MA MB MT KT : module (pK P)} {OA OB OT : carrier (pK P)}.
  Notation K := (pK P).
  Variables (D : bytes -> bytes) (fuel : nat) (rand : sampler R (pK P)).
  Context {XA XB XT : module (pK P)} (dA : XA -> OA) (dB : XB -> OB) (dT : XT -> OT).
  Context (fA : pG2 P -> MA -> XA) (fB : pG1 P -> MB -> XB) (fT : KT -> MT -> XT) (th : MA -> MB -> MT).
  Variables (LMC : dhc R MA (pG2 P) OA) (RMC : dhc R MB (pG1 P) OB) (IPC : dhc R MT KT OT).
  Variable ip : list MA -> list MB -> res MT.
  Hypothesis HD : digest16 D.
  Context (LA : lin_commit LMC dA fA) (LB : lin_commit RMC dB fB) (LT : ip_commit IPC dT fT) (LI : lin_ip ip th).
  Context (TT : setup_total IPC).

  Lemma tipa_test_passes draw rng k : draws_lengths draw ->
    passes (tipa_test LMC RMC IPC ip D fuel draw rand rng (2 ^ S k)).
  Proof using All.
    intros Hdraw. unfold tipa_test, passes.
    destruct (setup_total_ok rand IPC TT rng (2 ^ S k) (pow2_pos _)) as (s & kt & rng1 & ka & kb & v & Hs & Hk & Hka & Hkb & Hv).
    rewrite Hs. cbn [ok_unwrap rbind]. rewrite Hk, Hv. cbn [rbind].
    destruct (Hdraw rng1 (2 ^ S k)) as [Hl Hr]. destruct (draw rng1 (2 ^ S k)) as [[l r] rng2]. cbn [fst snd] in Hl, Hr.
    rewrite (lc_commit _ _ _ LA) by congruence. cbn [ok_unwrap rbind].
    rewrite (lc_commit _ _ _ LB) by congruence. cbn [ok_unwrap rbind].
    rewrite (li_ip _ _ LI) by congruence. cbn [ok_unwrap rbind].
    rewrite (ic_commit _ _ _ LT). cbn [ok_unwrap rbind].
    assert (HC : honest_com LMC RMC IPC ip ka kb kt l r (dot th l r) (dA (dot fA ka l)) (dB (dot fB kb r)) (dT (fT kt (dot th l r)))).
    { repeat split; [apply (lc_commit _ _ _ LA); congruence | apply (lc_commit _ _ _ LB); congruence
                    | apply (li_ip _ _ LI); congruence | apply (ic_commit _ _ _ LT)]. }
    destruct (C22_tipa_complete D fuel rand dA dB dT fA fB fT th LMC LMC RMC RMC IPC IPC ip ip HD LA LB LT LI LA LB LT LI
                rng k s kt kt rng1 ka kb v l r _ _ _ _ Hs Hk Hv Hl Hr HC) as [E1|[proof [E1 E2]]];
      rewrite E1; cbn [ok_unwrap rbind]; [now left|].
    rewrite E2. now right.
  Qed.

  (** the scalar of the shift, drawn after the setup and the vectors *)
  Definition test_shift (draw : R -> nat -> list MA * list MB * R) (rng : R) (n : nat) : K :=
    match tipa_setup IPC rand rng n with
    | Ok (_, _, rng') => fst (rand (snd (draw rng' n)))
    | _ => f0
    end.

  Lemma shift_test_outcome draw rng k : draws_lengths draw ->
    (test_shift draw rng (2 ^ S k) <> f0 -> passes (tipa_shift_test LMC RMC IPC ip D fuel draw rand rng (2 ^ S k))) /\
    (test_shift draw rng (2 ^ S k) = f0 -> tipa_shift_test LMC RMC IPC ip D fuel draw rand rng (2 ^ S k) = Panic).
  Proof using All.
    intros Hdraw. unfold tipa_shift_test, test_shift, passes.
    destruct (setup_total_ok rand IPC TT rng (2 ^ S k) (pow2_pos _)) as (s & kt & rng1 & ka & kb & v & Hs & Hk & Hka & Hkb & Hv).
    rewrite Hs. cbn [ok_unwrap rbind]. rewrite Hk, Hv. cbn [rbind].
    destruct (Hdraw rng1 (2 ^ S k)) as [Hl Hr]. destruct (draw rng1 (2 ^ S k)) as [[l r] rng2]. cbn [fst snd] in Hl, Hr |- *.
    rewrite (lc_commit _ _ _ LA) by congruence. cbn [ok_unwrap rbind].
    rewrite (lc_commit _ _ _ LB) by congruence. cbn [ok_unwrap rbind].
    destruct (rand rng2) as [x rng3]. cbn [fst].
    rewrite structured_scalar_power_spec, Nat.max_l by apply pow2_pos. cbn [rbind]. fold (powers (2 ^ S k) x).
    split; intros Hx.
    - rewrite (zipw_shift l x (2 ^ S k) Hl).
      match goal with |- context [rbind ?A _] => replace A with (Ok (shift_vec (finv x) ka)) by (symmetry; exact (inverse_shift ka x (2 ^ S k) Hx Hka)) end.
      cbn [rbind].
      assert (Hl' : length (shift_vec x l) = 2 ^ S k) by (unfold shift_vec; now rewrite map_length, seq_length).
      assert (Hk' : length (shift_vec (finv x) ka) = 2 ^ S k) by (unfold shift_vec; now rewrite map_length, seq_length).
      rewrite (li_ip _ _ LI) by congruence. cbn [ok_unwrap rbind].
      rewrite (ic_commit _ _ _ LT). cbn [ok_unwrap rbind].
      rewrite (C23_shift_commitment dA fA LMC LA x ka l Hx) by congruence.
      rewrite (lc_commit _ _ _ LA) by congruence. cbn [ok_unwrap rbind].
      rewrite (proj2 (ceqb_spec _ OA (dA (dot fA ka l)) _) eq_refl). cbn [rassert rbind].
      assert (HC : honest_com LMC RMC IPC ip (shift_vec (finv x) ka) kb kt (shift_vec x l) r (dot th (shift_vec x l) r)
                     (dA (dot fA ka l)) (dB (dot fB kb r)) (dT (fT kt (dot th (shift_vec x l) r)))).
      { repeat split; [rewrite (C23_shift_commitment dA fA LMC LA x ka l Hx) by congruence; apply (lc_commit _ _ _ LA); congruence
                      | apply (lc_commit _ _ _ LB); congruence
                      | apply (li_ip _ _ LI); congruence | apply (ic_commit _ _ _ LT)]. }
      destruct (C23_tipa_complete_shift D fuel rand dA dB dT fA fB fT th LMC LMC RMC RMC IPC IPC ip ip HD LA LB LT LI LA LB LT LI
                  rng k s kt kt rng1 x ka kb v Hs Hk Hv Hx (shift_vec x l) r _ _ _ _ Hl' Hr HC) as [E1|[proof [E1 E2]]];
        rewrite E1; cbn [ok_unwrap rbind]; [now left|].
      rewrite E2. now right.
    - subst x. assert (2 <= 2 ^ S k) by (cbn [Nat.pow]; pose proof (pow2_pos k); lia).
      match goal with |- context [rbind ?A _] => replace A with (@Panic (list (pG2 P))) by (symmetry; now apply (inverse_zero ka (2 ^ S k))) end.
      reflexivity.
  Qed.
End TipaTests.

(** ** structured scalar messages *)
Section SsmTests.
  Context {R : Type} {P : pairing} {MA MT KT : module (pK P)} {OA OT : carrier (pK P)}.
  Notation K := (pK P).
  Variables (D : bytes -> bytes) (fuel : nat) (E : penv) (rand : sampler R (pK P)).
  Context {XA XT : module (pK P)} (dA : XA -> OA) (dT : XT -> OT).
  Context (fA : pG2 P -> MA -> XA) (fT : KT -> MT -> XT) (th : MA -> fmod (pK P) -> MT).
  Variables (LMC : dhc R MA (pG2 P) OA) (IPC : dhc R MT KT OT) (ip : list MA -> list (fmod (pK P)) -> res MT).
  Hypothesis HD : digest16 D.
  Context (LA : lin_commit LMC dA fA) (LT : ip_commit IPC dT fT) (LI : lin_ip ip th) (TT : setup_total IPC).

  Lemma tipa_ssm_test_passes rand_a rng k : passes (tipa_ssm_test LMC IPC ip D fuel E rand_a rand rng (2 ^ S k)).
  Proof using All.
    unfold tipa_ssm_test, tssm_setup, passes.
    destruct (setup_total_ok rand IPC TT rng (2 ^ S k) (pow2_pos _)) as (s & kt & rng1 & ka & kb & v & Hs & Hk & Hka & Hkb & Hv).
    rewrite Hs. cbn [ok_unwrap rbind]. rewrite Hk, Hv. cbn [rbind].
    pose proof (generators_length rand_a (2 ^ S k) rng1) as Hl. destruct (random_generators rand_a rng1 (2 ^ S k)) as [l rng2]. cbn [fst] in Hl.
    destruct (rand rng2) as [b rng3].
    assert (Hb : structured_scalar_power (2 ^ S k) b = Ok (powers (2 ^ S k) b)).
    { rewrite structured_scalar_power_spec, Nat.max_l by apply pow2_pos. reflexivity. }
    rewrite Hb. cbn [rbind].
    assert (Hm : length l = length (powers (2 ^ S k) b : list (fmod K))) by (rewrite Hl; symmetry; apply powers_length).
    rewrite (lc_commit _ _ _ LA) by congruence. cbn [ok_unwrap rbind].
    match goal with |- context [rbind (ok_unwrap ?A) _] => replace A with (Ok (dot th l (powers (2 ^ S k) b : list (fmod K)))) by (symmetry; now apply (li_ip _ _ LI)) end.
    cbn [ok_unwrap rbind]. rewrite (ic_commit _ _ _ LT). cbn [ok_unwrap rbind].
    destruct (C30_tssm_complete D fuel E rand dA dT fA fT th LMC LMC IPC IPC ip ip HD LA LT LI LA LT LI
                rng k s kt kt rng1 ka kb v b _ Hs Hk Hv Hb l (dA (dot fA ka l)) (dT (fT kt (dot th l (powers (2 ^ S k) b : list (fmod K))))) Hl)
      as [E1|[proof [E1 E2]]].
    - split; [apply (lc_commit _ _ _ LA); congruence|]. eexists. split; [now apply (li_ip _ _ LI)|apply (ic_commit _ _ _ LT)].
    - match goal with |- context [rbind (ok_unwrap ?A) _] => replace A with (@Loop (tssm_proof P MA OA OT)) by (symmetry; exact E1) end. now left.
    - match goal with |- context [rbind (ok_unwrap ?A) _] => replace A with (Ok proof) by (symmetry; exact E1) end.
      cbn [ok_unwrap rbind]. rewrite E2. now right.
  Qed.
End SsmTests.

Section GssmTests.
  Context {R : Type} {K : field} {MA KA MT KT : module K} {OA OT : carrier K}.
  Variables (D : bytes -> bytes) (fuel : nat) (E : penv) (rand : sampler R K).
  Context {XA XT : module K} (dA : XA -> OA) (dT : XT -> OT).
  Context (fA : KA -> MA -> XA) (fT : KT -> MT -> XT) (th : MA -> fmod K -> MT).
  Variables (LMC : dhc R MA KA OA) (IPC : dhc R MT KT OT) (ip : list MA -> list (fmod K) -> res MT).
  Hypothesis HD : digest16 D.
  Context (LA : lin_commit LMC dA fA) (LT : ip_commit IPC dT fT) (LI : lin_ip ip th) (TA : setup_total LMC) (TT : setup_total IPC).

  Lemma gipa_ssm_test_passes rand_a rng k : passes (gipa_ssm_test LMC IPC ip D fuel E rand_a rand rng (2 ^ k)).
  Proof using All.
    unfold gipa_ssm_test, gssm_setup, passes.
    destruct (TA rng (2 ^ k)) as [ka [rng1 [-> Hka]]]. cbn [rbind].
    destruct (TT rng1 1) as [kts [rng2 [-> Hkt]]]. destruct kts as [|kt [|? ?]]; try discriminate.
    cbn [last_opt runwrap rbind ok_unwrap].
    pose proof (generators_length rand_a (2 ^ k) rng2) as Hl. destruct (random_generators rand_a rng2 (2 ^ k)) as [l rng3]. cbn [fst] in Hl.
    destruct (rand rng3) as [b rng4].
    assert (Hb : structured_scalar_power (2 ^ k) b = Ok (powers (2 ^ k) b)).
    { rewrite structured_scalar_power_spec, Nat.max_l by apply pow2_pos. reflexivity. }
    rewrite Hb. cbn [rbind].
    assert (Hm : length l = length (powers (2 ^ k) b : list (fmod K))) by (rewrite Hl; symmetry; apply powers_length).
    rewrite (lc_commit _ _ _ LA) by congruence. cbn [ok_unwrap rbind].
    match goal with |- context [rbind (ok_unwrap ?A) _] => replace A with (Ok (dot th l (powers (2 ^ k) b : list (fmod K)))) by (symmetry; now apply (li_ip _ _ LI)) end.
    cbn [ok_unwrap rbind]. rewrite (ic_commit _ _ _ LT). cbn [ok_unwrap rbind].
    destruct (C29_gssm_complete D fuel E dA dT fA fT th LMC LMC IPC IPC ip ip HD LA LT LI LA LT LI
                k b _ l ka kt (dA (dot fA ka l)) (dT (fT kt (dot th l (powers (2 ^ k) b : list (fmod K))))) Hl Hka Hb)
      as [E1|[proof [E1 E2]]].
    - split; [apply (lc_commit _ _ _ LA); congruence|]. eexists. split; [now apply (li_ip _ _ LI)|apply (ic_commit _ _ _ LT)].
    - match goal with |- context [rbind (ok_unwrap ?A) _] => replace A with (@Loop (gssm_proof MA OA OT)) by (symmetry; exact E1) end. now left.
    - match goal with |- context [rbind (ok_unwrap ?A) _] => replace A with (Ok proof) by (symmetry; exact E1) end.
      cbn [ok_unwrap rbind]. rewrite E2. now right.
  Qed.
End GssmTests.

(** ** the tests of the crate ip_proofs *)
Section Instances.
  Context {R : Type} {P : pairing}.
  Notation K := (pK P).
  Variables (E : penv) (D : bytes -> bytes) (fuel : nat).
  Variables (rand : sampler R K) (r1 : sampler R (pG1 P)) (r2 : sampler R (pG2 P)).
  Hypothesis HE : 1 <= threads E.
  Hypothesis HD : digest16 D.
  Notation gc1 := (afgho_g1 P E r2).
  Notation gc2 := (afgho_g2 P E r1).
  Notation sc1 := (pedersen (pG1 P) r1).
  Notation sc2 := (pedersen (pG2 P) r2).
  Notation it := (identity (R := R) (pGT P)).
  Notation ig := (identity (R := R) (pG1 P)).
  Notation is_ := (identity (R := R) (fmod K)).
  Notation rs := (rand : sampler R (fmod K)).

  Let S1 : setup_total sc1. Proof. exact (proj1 (C08_setups_total R K (pG1 P) P E r1 r1 r2)). Qed.
  Let S2 : setup_total sc2. Proof. exact (proj1 (C08_setups_total R K (pG2 P) P E r2 r1 r2)). Qed.
  Let A1 : setup_total gc1. Proof. exact (proj1 (proj2 (C08_setups_total R K (pG1 P) P E r1 r1 r2))). Qed.
  Let A2 : setup_total gc2. Proof. exact (proj1 (proj2 (proj2 (C08_setups_total R K (pG1 P) P E r1 r1 r2)))). Qed.
  Lemma identity_total (G : module K) : setup_total (identity (R := R) G).
  Proof. exact (proj2 (proj2 (proj2 (C08_setups_total R K G P E (fun r => (m0, r)) r1 r2)))). Qed.

  (** all GIPA tests, for vectors of any power of two (also 1) *)
  Theorem C81_gipa_tests (rng : R) k :
    passes (gipa_test gc1 gc2 it (pairing_ip P E) D fuel (sample_both r1 r2) rng (2 ^ k)) /\
    passes (gipa_test gc1 sc1 ig (multiexp_ip (pG1 P)) D fuel (sample_both r1 rs) rng (2 ^ k)) /\
    passes (gipa_test sc2 sc2 is_ (scalar_ip E) D fuel (sample_pairs rs rs) rng (2 ^ k)) /\
    passes (gipa_ssm_test sc1 is_ (scalar_ip E) D fuel E rs rand rng (2 ^ k)).
  Proof using HE HD.
    repeat split.
    - apply (gipa_test_passes D fuel mid mid idout (phi_g1 P) (pr_e P) psi_id (pr_e P) gc1 gc2 it (pairing_ip P E) HD
        (afgho_g1_law P E HE r2) (afgho_g2_law P E HE r1) (identity_law _) (pairing_ip_law P E HE) A1 A2 (identity_total _)), sample_both_draws.
    - apply (gipa_test_passes D fuel mid mid idout (phi_g1 P) smul psi_id smul gc1 sc1 ig (multiexp_ip (pG1 P)) HD
        (afgho_g1_law P E HE r2) (pedersen_law _ r1) (identity_law _) (multiexp_ip_law _) A1 S1 (identity_total _)), sample_both_draws.
    - apply (gipa_test_passes D fuel mid mid idout smul smul psi_id fmul' sc2 sc2 is_ (scalar_ip E) HD
        (pedersen_law _ r2) (pedersen_law _ r2) (identity_law _) (scalar_ip_law E) S2 S2 (identity_total _)), sample_pairs_draws.
    - apply (gipa_ssm_test_passes D fuel E rand mid idout smul psi_id fmul' sc1 is_ (scalar_ip E) HD
        (pedersen_law _ r1) (identity_law _) (scalar_ip_law E) S1 (identity_total _)).
  Qed.

  (** the TIPA tests, for vectors of any power of two from 2 *)
  Theorem C81_tipa_tests (rng : R) k :
    passes (tipa_test gc1 gc2 it (pairing_ip P E) D fuel (sample_both r1 r2) rand rng (2 ^ S k)) /\
    passes (tipa_test gc1 sc1 ig (multiexp_ip (pG1 P)) D fuel (sample_both r1 rs) rand rng (2 ^ S k)) /\
    passes (tipa_test sc2 sc1 is_ (scalar_ip E) D fuel (sample_pairs rs rs) rand rng (2 ^ S k)) /\
    passes (tipa_ssm_test gc1 ig (multiexp_ip (pG1 P)) D fuel E r1 rand rng (2 ^ S k)).
  Proof using HE HD.
    repeat split.
    - apply (tipa_test_passes D fuel rand mid mid idout (phi_g1 P) (pr_e P) psi_id (pr_e P) gc1 gc2 it (pairing_ip P E) HD
        (afgho_g1_law P E HE r2) (afgho_g2_law P E HE r1) (identity_law _) (pairing_ip_law P E HE) (identity_total _)), sample_both_draws.
    - apply (tipa_test_passes D fuel rand mid mid idout (phi_g1 P) smul psi_id smul gc1 sc1 ig (multiexp_ip (pG1 P)) HD
        (afgho_g1_law P E HE r2) (pedersen_law _ r1) (identity_law _) (multiexp_ip_law _) (identity_total _)), sample_both_draws.
    - apply (tipa_test_passes D fuel rand mid mid idout smul smul psi_id fmul' sc2 sc1 is_ (scalar_ip E) HD
        (pedersen_law _ r2) (pedersen_law _ r1) (identity_law _) (scalar_ip_law E) (identity_total _)), sample_pairs_draws.
    - apply (tipa_ssm_test_passes D fuel E rand mid idout (phi_g1 P) psi_id smul gc1 ig (multiexp_ip (pG1 P)) HD
        (afgho_g1_law P E HE r2) (identity_law _) (multiexp_ip_law _) (identity_total _)).
  Qed.

  (** The test with the shift unwraps the inverse of a random scalar: it passes unless that is 0, and then panics. *)
  Theorem C81_tipa_shift_test (rng : R) k :
    let x := test_shift rand it (sample_both r1 r2) rng (2 ^ S k) in
    let t := tipa_shift_test gc1 gc2 it (pairing_ip P E) D fuel (sample_both r1 r2) rand rng (2 ^ S k) in
    (x <> f0 -> passes t) /\ (x = f0 -> t = Panic).
  Proof using HE HD.
    apply (shift_test_outcome D fuel rand mid mid idout (phi_g1 P) (pr_e P) psi_id (pr_e P) gc1 gc2 it (pairing_ip P E) HD
      (afgho_g1_law P E HE r2) (afgho_g2_law P E HE r1) (identity_law _) (pairing_ip_law P E HE) (identity_total _)), sample_both_draws.
  Qed.

  Lemma from_coefficients_below n (cs : list K) : length cs = n -> 1 <= n -> degree_below n (from_coefficients cs).
  Proof.
    clear. intros Hl Hn. apply degree_below_wf. rewrite <- Hl. apply PcFacts.wf_row_stripped; [apply strip_stripped|lia|apply strip_length].
  Qed.
  Lemma sample_bipoly_below yn : 1 <= yn -> forall xn rng,
    length (fst (sample_bipoly P rand rng xn yn)) = xn /\ Forall (degree_below yn) (fst (sample_bipoly P rand rng xn yn)) /\
    Forall (fun row => length row <= yn) (fst (sample_bipoly P rand rng xn yn)).
  Proof.
    clear. intros Hy. induction xn as [|xn IH]; intros rng; cbn [sample_bipoly]; [repeat constructor|].
    pose proof (generators_length rand yn rng) as Hl. destruct (random_generators rand rng yn) as [cs rng1]. cbn [fst] in Hl.
    specialize (IH rng1). destruct (sample_bipoly P rand rng1 xn yn) as [rest rng2]. cbn [fst length] in *. destruct IH as [I1 [I2 I3]].
    split; [lia|]. split; constructor; auto.
    - now apply from_coefficients_below.
    - rewrite <- Hl. apply strip_length.
  Qed.

  (** The bivariate test is for 2^a rows, a from 1 (8 in the test), and any number of columns; the univariate one for any
      degree below 2^64 - 1 for which the split is large enough (all below 2^52; the test uses 65535). *)
  Theorem C81_poly_commit_tests (rng : R) :
    (forall k xd yd, xd + 1 = 2 ^ S k -> passes (bivariate_poly_commit_test P E D fuel rand r2 rng xd yd)) /\
    (forall d, 1 <= d -> (Z.of_nat d + 1 < 2 ^ 64)%Z -> ~ rounding_loses (Z.of_nat d) -> passes (univariate_poly_commit_test P E D fuel rand r2 rng d)).
  Proof using HE HD.
    split.
    - intros k xd yd Hx. unfold bivariate_poly_commit_test, passes.
      destruct (C34_bivariate_complete (P := P) E E HE HE D fuel rand r2 r2 rng k xd yd HD Hx) as (s & rng1 & v & -> & Hv & H).
      cbn [ok_unwrap rbind]. rewrite Hv. cbn [rbind].
      destruct (sample_bipoly_below (yd + 1) ltac:(lia) (xd + 1) rng1) as [Hl [Hr _]].
      destruct (sample_bipoly P rand rng1 (xd + 1) (yd + 1)) as [p rng2]. cbn [fst] in *.
      destruct (rand rng2) as [x rng3]. destruct (rand rng3) as [y rng4].
      destruct (H p x y ltac:(lia) Hr) as [com [coms [-> [E1|[proof [E1 E2]]]]]]; cbn [ok_unwrap rbind]; rewrite E1; cbn [ok_unwrap rbind]; [now left|].
      rewrite C35_bivariate_evaluation, E2. now right.
    - intros d Hd Hlt Hnl. unfold univariate_poly_commit_test, passes.
      destruct (upc_complete_wide (P := P) E E HE HE D fuel HD rand r2 r2 rng d Hd Hlt Hnl) as (s & rng1 & v & -> & Hv & H).
      cbn [ok_unwrap rbind]. rewrite Hv. cbn [rbind].
      pose proof (generators_length rand (d + 1) rng1) as Hl. destruct (random_generators rand rng1 (d + 1)) as [cs rng2]. cbn [fst] in Hl.
      destruct (rand rng2) as [z rng3].
      destruct (H (from_coefficients cs) z (from_coefficients_below _ cs Hl ltac:(lia))) as [com [coms [-> [E1|[proof [E1 E2]]]]]];
        cbn [ok_unwrap rbind]; rewrite E1; cbn [ok_unwrap rbind]; [now left|].
      rewrite ev_poly_at, E2. now right.
  Qed.

  Theorem C81_transparent_tests (rng : R) :
    (forall a b xd yd, xd + 1 = 2 ^ a -> yd + 1 = 2 ^ b -> passes (transparent_bivariate_poly_commit_test P E D fuel rand r1 r2 rng xd yd)) /\
    (forall d, 1 <= d -> (Z.of_nat d + 1 < 2 ^ 64)%Z -> ~ rounding_loses (Z.of_nat d) -> passes (transparent_univariate_poly_commit_test P E D fuel rand r1 r2 rng d)).
  Proof using HE HD.
    split.
    - intros a b xd yd Hx Hy. unfold transparent_bivariate_poly_commit_test, passes.
      destruct (C40_setup E r1 r2 rng xd yd) as (ck1 & ck2 & rng1 & -> & H1 & H2). cbn [ok_unwrap rbind].
      destruct (sample_bipoly_below (yd + 1) ltac:(lia) (xd + 1) rng1) as [Hl [_ Hr]].
      destruct (sample_bipoly P rand rng1 (xd + 1) (yd + 1)) as [p rng2]. cbn [fst] in *.
      destruct (rand rng2) as [x rng3]. destruct (rand rng3) as [y rng4]. rewrite Hy in Hr.
      destruct (C40_bivariate_complete (P := P) E E HE HE D fuel r1 r1 r2 r2 ck1 ck2 b a p x y HD ltac:(lia) ltac:(lia) ltac:(lia) Hr)
        as [com [coms [-> [E1|[proof [E1 E2]]]]]]; cbn [ok_unwrap rbind]; rewrite E1; cbn [ok_unwrap rbind]; [now left|].
      rewrite C35_bivariate_evaluation, E2. now right.
    - intros d Hd Hlt Hnl. unfold transparent_univariate_poly_commit_test, passes.
      destruct (C80_transparent_complete (P := P) E E HE HE D fuel HD r1 r1 r2 r2 rng d Hd Hlt Hnl) as (ck & rng1 & -> & H).
      cbn [ok_unwrap rbind].
      pose proof (generators_length rand (d + 1) rng1) as Hl. destruct (random_generators rand rng1 (d + 1)) as [cs rng2]. cbn [fst] in Hl.
      destruct (rand rng2) as [z rng3].
      destruct (H (from_coefficients cs) z (from_coefficients_below _ cs Hl ltac:(lia))) as [com [coms [-> [E1|[proof [E1 E2]]]]]];
        cbn [ok_unwrap rbind]; rewrite E1; cbn [ok_unwrap rbind]; [now left|].
      rewrite ev_poly_at, (proj2 (E2 _) eq_refl). now right.
  Qed.
End Instances.
Example C81_example_degrees : ~ rounding_loses 65535 /\ ~ rounding_loses (2 ^ 52 - 1) /\ ~ rounding_loses (2 ^ 62 - 1).
Proof.
  assert (H : forall d, (d = 65535 \/ d = 2 ^ 52 - 1 \/ d = 2 ^ 62 - 1)%Z -> ~ rounding_loses d); [|auto 10].
  intros d Hd [k [Hk [H1 H2]]]. assert (Hc : (k = 26 \/ k = 27 \/ k = 28 \/ k = 29 \/ k = 30 \/ k = 31)%Z) by lia.
  destruct Hc as [->|[->|[->|[->|[->| ->]]]]]; destruct Hd as [->|[->| ->]]; cbn in H1, H2; lia.
Qed.
Print Assumptions C81_gipa_tests.
Print Assumptions C81_tipa_tests.
Print Assumptions C81_tipa_shift_test.
Print Assumptions C81_poly_commit_tests.
Print Assumptions C81_transparent_tests.

(** ** sipp *)
Section SippTests.
  Variables (P : pairing) (E : penv) (S : stream) (D : bytes -> bytes).
  Variables (r1 : sampler (fsrng S) (pG1 P)) (r2 : sampler (fsrng S) (pG2 P)) (rand : sampler (fsrng S) (pK P)).
  Hypothesis HE : 1 <= threads E.

  Lemma sample_triples_length : forall n rng, let '(a, b, r, _) := sample_triples P S r1 r2 rand rng n in
    length a = n /\ length b = n /\ length r = n.
  Proof.
    clear. induction n as [|n IH]; intros rng; cbn [sample_triples]; [auto|].
    destruct (r1 rng) as [x rng1]. destruct (r2 rng1) as [y rng2]. destruct (rand rng2) as [s rng3]. specialize (IH rng3).
    destruct (sample_triples P S r1 r2 rand rng3 n) as [[[a b] r] rng4]. cbn [length]. lia.
  Qed.

  (** The test passes, or the prover draws a challenge 0 and panics. *)
  Theorem C81_sipp_test seed k : 1 <= k -> k < 64 ->
    let '(a, b, r, _) := sample_triples P S r1 r2 rand (fs_from_seed S D seed) (2 ^ k) in
    let x_of := challenges_of P S D (sipp_seed P a b r (sipp_value P a b r)) in
    prove_and_verify_base_case P E S D r1 r2 rand seed (2 ^ k) = Ok tt \/
    (prove_and_verify_base_case P E S D r1 r2 rand seed (2 ^ k) = Panic /\
     exists xs, length xs < k /\ Forall (fun x => x <> f0) xs /\
       x_of (honest_elems (xs ++ [f0]) (scaled_by P r a) b) = xs ++ [f0]).
  Proof using HE.
    intros Hk Hk'. unfold prove_and_verify_base_case. pose proof (sample_triples_length (2 ^ k) (fs_from_seed S D seed)) as H.
    destruct (sample_triples P S r1 r2 rand (fs_from_seed S D seed) (2 ^ k)) as [[[a b] r] rng1]. destruct H as [Ha [Hb Hr]].
    rewrite C04_product_of_pairings_with_coeffs by (auto; lia). cbn [rbind]. fold (sipp_value P a b r).
    assert (Hu : u64_bound (length a)).
    { unfold u64_bound. rewrite Ha, Nat2N.inj_pow. change (N.of_nat 2) with 2%N. apply N.pow_lt_mono_r; lia. }
    destruct (C45_complete (S := S) (D := D) k a b r E HE Hk Hu Ha Hb ltac:(lia)) as [[zs [E1 E2]]|[E1 Hz]].
    - left. rewrite E1. cbn [ok_unwrap rbind]. rewrite E2. reflexivity.
    - right. rewrite E1. split; [reflexivity|exact Hz].
  Qed.
End SippTests.
Print Assumptions C81_sipp_test.

(** ** Concrete cases *)
Definition ex_sipp_rand : sampler (fsrng toy_stream) zp :=
  fun rng => (zq (Z.of_N (N.modulo (fs_r rng) 101)), mk_fsrng (S := toy_stream) (N.succ (fs_r rng)) (fs_seed rng)).
Example C81_example_passes :
  commit_test (pedersen ZM ex_rand) (ex_rand : sampler Z (fmod ZP)) 5%Z 2 = Ok tt /\
  commit_test (afgho_g1 ZPair ex_env ex_rand) ex_rand 5%Z 2 = Ok tt /\
  commit_test (afgho_g2 ZPair ex_env ex_rand) ex_rand 5%Z 3 = Ok tt /\
  gipa_test (afgho_g1 ZPair ex_env ex_rand) (afgho_g2 ZPair ex_env ex_rand) (identity ZM) (pairing_ip ZPair ex_env) toy_digest 9
    (sample_both ex_rand ex_rand) 5%Z 4 = Ok tt /\
  gipa_ssm_test (pedersen ZM ex_rand) (identity (fmod ZP)) (scalar_ip ex_env) toy_digest 9 ex_env (ex_scalars : sampler Z (fmod ZP)) ex_scalars 5%Z 4 = Ok tt /\
  tipa_test (P := ZPair) (pedersen ZM ex_rand) (pedersen ZM ex_rand) (identity (fmod ZP)) (scalar_ip ex_env) toy_digest 9
    (sample_pairs (ex_scalars : sampler Z (fmod ZP)) (ex_scalars : sampler Z (fmod ZP))) ex_scalars 5%Z 4 = Ok tt /\
  bivariate_poly_commit_test ZPair ex_env toy_digest 9 ex_scalars ex_rand 5%Z 3 2 = Ok tt /\
  univariate_poly_commit_test ZPair ex_env toy_digest 9 ex_scalars ex_rand 5%Z 3 = Ok tt /\
  transparent_bivariate_poly_commit_test ZPair ex_env toy_digest 9 ex_scalars ex_rand ex_rand 5%Z 1 3 = Ok tt /\
  transparent_univariate_poly_commit_test ZPair ex_env toy_digest 9 ex_scalars ex_rand ex_rand 5%Z 3 = Ok tt /\
  prove_and_verify_base_case ZPair ex_env toy_stream toy_digest ex_sipp_rand ex_sipp_rand ex_sipp_rand [102; 97; 108; 97; 102; 101; 108]%N 4 = Ok tt.
Proof. vm_compute. repeat split; reflexivity. Qed.
Example C81_example_shift :
  tipa_shift_test (afgho_g1 ZPair ex_env ex_rand) (afgho_g2 ZPair ex_env ex_rand) (identity ZM) (pairing_ip ZPair ex_env) toy_digest 9
    (sample_both ex_rand ex_rand) ex_scalars 5%Z 4 = Ok tt /\
  tipa_shift_test (afgho_g1 ZPair ex_env ex_rand) (afgho_g2 ZPair ex_env ex_rand) (identity ZM) (pairing_ip ZPair ex_env) toy_digest 9
    (sample_both ex_rand ex_rand) (fun z => (zq 0, z)) 5%Z 4 = Panic.
Proof. vm_compute. split; reflexivity. Qed.
(** A generator that always returns the same element makes the message and the wrong message equal; a prover that draws
    0 in SIPP. *)
Example C81_example_panics :
  commit_test (pedersen ZM ex_rand) ((fun z => (zq 7, z)) : sampler Z (fmod ZP)) 5%Z 2 = Panic /\
  prove_and_verify_base_case ZPair ex_env toy_stream (fun _ => [202%N]) ex_sipp_rand ex_sipp_rand ex_sipp_rand [102]%N 4 = Panic.
Proof. vm_compute. split; reflexivity. Qed.

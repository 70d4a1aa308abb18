(** Facts about the instrumented programs of Cost.v: they are the programs of the model, and what they cost. *)
Require Import List Arith NArith ZArith Lia Bool.
Import ListNotations.
Require Import Verif.Outcome Verif.Algebra Verif.Zp Verif.Rust Verif.InnerProducts Verif.Commitments
  Verif.Poly Verif.Gipa Verif.Tipa Verif.Ssm Verif.Floats Verif.PolyCommit Verif.Transparent Verif.Rng Verif.Sipp Verif.Groth16 Verif.Cost
  Verif.Spec Verif.ListFacts Verif.RustFacts Verif.InnerProductFacts Verif.CommitFacts
  Verif.GipaFacts Verif.GipaComplete Verif.GipaTop Verif.PolyFacts Verif.SippFacts
  Verif.PropsBase Verif.PropsGipa Verif.PropsTipa Verif.PropsSsm Verif.PropsPoly Verif.PropsSipp Verif.PropsGroth.

(** ** The instrumented programs are the programs of the model *)
Lemma snd_tbind {A B} (x : traced A) (f : A -> traced B) : snd (tbind x f) = rbind (snd x) (fun a => snd (f a)).
Proof. unfold tbind. destruct x as [t [a|e| |]]; reflexivity. Qed.
Lemma rbind_cong {A B} (x y : res A) (f g : A -> res B) :
  x = y -> (forall a, f a = g a) -> rbind x f = rbind y g.
Proof. intros -> H. destruct y; cbn; auto. Qed.
Lemma snd_run_emit {B} t (f : unit -> traced B) : snd (tbind (emit t) f) = snd (f tt).
Proof. reflexivity. Qed.
Lemma snd_lift {A} (x : res A) : snd (lift x) = x.
Proof. reflexivity. Qed.
Lemma snd_tand a b : snd (tand_then a b) = rand_then (snd a) (snd b).
Proof. unfold tand_then, rand_then. rewrite snd_tbind. apply rbind_cong; auto. now intros []. Qed.

Ltac erase1 := first [ rewrite snd_run_emit | rewrite snd_tand; f_equal
  | rewrite snd_tbind; apply rbind_cong; [|intros; repeat match goal with |- context [let '(_, _) := ?x in _] => is_var x; destruct x end] | rewrite snd_lift | reflexivity ].
Ltac erase := repeat erase1.

Section EraseGipa.
  Context {R : Type} {K : field}.
  Context {MA MB MT KA KB KT : module K} {OA OB OT : carrier K}.
  Variable LMC : dhc R MA KA OA.
  Variable RMC : dhc R MB KB OB.
  Variable IPC : dhc R MT KT OT.
  Variable ip : list MA -> list MB -> res MT.
  Variable D : bytes -> bytes.
  Variable fuel : nat.

  Lemma erase_challenge fu : forall n (prev : K) (c1 c2 : com3 OA OB OT),
    snd (gipa_challenge_t D fu n prev c1 c2) = gipa_challenge D fu n prev c1 c2.
  Proof.
    induction fu; intros; [reflexivity|]. cbn [gipa_challenge_t gipa_challenge]. erase.
    cbv zeta. destruct finverse; auto.
  Qed.

  Lemma erase_commit3 ka ma kb mb kt :
    snd (gipa_commit3_t LMC RMC IPC ip ka ma kb mb kt) = gipa_commit3 LMC RMC IPC ip ka ma kb mb kt.
  Proof. unfold gipa_commit3_t, gipa_commit3. erase. Qed.

  Lemma erase_rescale {M : module K} x (l1 l2 : list M) : snd (rescale_t x l1 l2) = Ok (rescale x l1 l2).
  Proof. reflexivity. Qed.

  Lemma run_rescale {M : module K} {B} x (l1 l2 : list M) (f : list M -> traced B) :
    snd (tbind (rescale_t x l1 l2) f) = snd (f (rescale x l1 l2)).
  Proof. reflexivity. Qed.

  Lemma erase_prove_loop n : forall m_a m_b ck_a ck_b ck_t st tr,
    snd (gipa_prove_loop_t LMC RMC IPC ip D fuel n m_a m_b ck_a ck_b ck_t st tr) =
    gipa_prove_loop LMC RMC IPC ip D fuel n m_a m_b ck_a ck_b ck_t st tr.
  Proof.
    induction n; intros; cbn [gipa_prove_loop_t gipa_prove_loop]; destruct (_ =? 1); try reflexivity.
    cbv zeta. do 8 erase1. all: try reflexivity.
    rewrite snd_tbind. apply rbind_cong; [apply erase_commit3|intros c1].
    rewrite snd_tbind. apply rbind_cong; [apply erase_commit3|intros c2].
    rewrite snd_tbind. apply rbind_cong; [apply erase_challenge|intros [c ci]].
    rewrite !run_rescale. apply IHn.
  Qed.

  Lemma erase_prove values ck :
    snd (gipa_prove_with_aux_t LMC RMC IPC ip D fuel values ck) = gipa_prove_with_aux LMC RMC IPC ip D fuel values ck.
  Proof.
    destruct values as [a b], ck as [[ka kb] kt]. unfold gipa_prove_with_aux_t, gipa_prove_with_aux.
    rewrite snd_tbind. apply rbind_cong; [reflexivity|intros _].
    rewrite snd_tbind. apply rbind_cong; [apply erase_prove_loop|intros [[[m k] st] t]]. reflexivity.
  Qed.

  Lemma erase_challenges_loop steps : forall (com : com3 OA OB OT) t,
    snd (gipa_challenges_loop_t D fuel com t steps) = gipa_challenges_loop D fuel com t steps.
  Proof.
    induction steps as [|[c1 c2] steps IH]; intros; [reflexivity|]. cbn [gipa_challenges_loop_t gipa_challenges_loop].
    rewrite snd_tbind. apply rbind_cong; [apply erase_challenge|intros [c ci]]. rewrite snd_run_emit.
    destruct com as [[ca cb] ct], c1 as [[a1 b1] t1], c2 as [[a2 b2] t2]. apply IH.
  Qed.

  Lemma erase_recursive (com : com3 OA OB OT) (proof : gipa_proof MA MB OA OB OT) :
    snd (gipa_recursive_challenges_t D fuel com proof) = gipa_recursive_challenges D fuel com proof.
  Proof.
    unfold gipa_recursive_challenges_t, gipa_recursive_challenges.
    rewrite snd_tbind. apply rbind_cong; [apply erase_challenges_loop|intros [c t]]. reflexivity.
  Qed.

  Lemma erase_push (x : K) js : forall v, snd (push_scaled_t x js v) = push_scaled x js v.
  Proof.
    induction js; intros; [reflexivity|]. cbn [push_scaled_t push_scaled].
    rewrite snd_tbind. apply rbind_cong; [reflexivity|intros y]. rewrite snd_run_emit. apply IHjs.
  Qed.

  Lemma erase_exponents t : forall i (ea eb : list K), snd (ck_exponents_t i t ea eb) = ck_exponents i t ea eb.
  Proof.
    induction t; intros; [reflexivity|]. cbn [ck_exponents_t ck_exponents].
    rewrite snd_tbind. apply rbind_cong; [reflexivity|intros y].
    rewrite snd_tbind. apply rbind_cong; [apply erase_push|intros y2].
    rewrite snd_tbind. apply rbind_cong; [apply erase_push|intros y3]. apply IHt.
  Qed.

  Lemma erase_combine {M : module K} (ck : list M) exps : snd (ck_combine_t ck exps) = ck_combine ck exps.
  Proof. unfold ck_combine_t, ck_combine. erase. Qed.

  Lemma erase_final_keys {KB' : module K} (ck_a : list KA) (ck_b : list KB') t :
    snd (gipa_final_keys_t ck_a ck_b t) = gipa_final_keys ck_a ck_b t.
  Proof.
    unfold gipa_final_keys_t, gipa_final_keys.
    rewrite snd_tbind. apply rbind_cong; [reflexivity|intros _].
    rewrite snd_tbind. apply rbind_cong; [apply erase_exponents|intros [ea eb]].
    rewrite snd_tbind. apply rbind_cong; [reflexivity|intros _].
    rewrite snd_tbind. apply rbind_cong; [apply erase_combine|intros ka].
    rewrite snd_tbind. apply rbind_cong; [apply erase_combine|reflexivity].
  Qed.

  Lemma erase_base ka kb kt com proof :
    snd (gipa_verify_base_t LMC RMC IPC ip ka kb kt com proof) = gipa_verify_base LMC RMC IPC ip ka kb kt com proof.
  Proof.
    destruct com as [[ca cb] ct]. unfold gipa_verify_base_t, gipa_verify_base.
    destruct (gp_base proof) as [a b]. erase.
  Qed.

  Lemma erase_gipa_verify ck com proof :
    snd (gipa_verify_t LMC RMC IPC ip D fuel ck com proof) = gipa_verify LMC RMC IPC ip D fuel ck com proof.
  Proof.
    destruct ck as [[ka kb] kt]. unfold gipa_verify_t, gipa_verify. destruct (_ || _)%bool; [reflexivity|].
    rewrite snd_tbind. apply rbind_cong; [apply erase_recursive|intros [c t]].
    rewrite snd_tbind. apply rbind_cong; [apply erase_final_keys|intros [a b]]. apply erase_base.
  Qed.
End EraseGipa.

Lemma erase_rand {K : field} D fuel : forall n payload,
  snd (rand_challenge_t (K := K) D fuel n payload) = rand_challenge D fuel n payload.
Proof.
  induction fuel; intros; [reflexivity|]. cbn [rand_challenge_t rand_challenge]. rewrite snd_run_emit.
  destruct f_rand; auto.
Qed.

Section EraseTipa.
  Context {R : Type} {P : pairing}.
  Notation K := (pK P).
  Context {MA MB MT KA KT : module (pK P)} {OA OB OT : carrier (pK P)}.
  Variable D : bytes -> bytes.
  Variable fuel : nat.

  Lemma erase_tipa (LMC : dhc R MA (pG2 P) OA) (RMC : dhc R MB (pG1 P) OB) (IPC : dhc R MT KT OT) ip v kt com proof r :
    snd (tipa_verify_with_srs_shift_t LMC RMC IPC ip D fuel v kt com proof r) =
    tipa_verify_with_srs_shift LMC RMC IPC ip D fuel v kt com proof r.
  Proof.
    unfold tipa_verify_with_srs_shift_t, tipa_verify_with_srs_shift.
    rewrite snd_tbind. apply rbind_cong; [apply erase_recursive|intros [c t]].
    rewrite snd_tbind. apply rbind_cong; [reflexivity|intros ti].
    destruct (tp_final_ck proof) as [fa fb], (tp_final_ck_proof proof) as [pa pb].
    rewrite snd_tbind. apply rbind_cong; [reflexivity|intros t0].
    rewrite snd_tbind. apply rbind_cong; [apply erase_rand|intros ch].
    rewrite snd_tbind. apply rbind_cong; [reflexivity|intros ri].
    rewrite snd_tbind. apply rbind_cong; [reflexivity|intros va].
    rewrite snd_tbind. apply rbind_cong; [reflexivity|intros vb].
    destruct c as [[ca cb] ct] eqn:Ec. rewrite <- Ec at 1. rewrite snd_tbind, erase_base, Ec. unfold gipa_verify_base.
    destruct (gp_base (tp_gipa proof)) as [a b]. unfold rand_then.
    destruct (ip [a] [b]); cbn [rbind]; auto.
  Qed.

  Variable E : penv.
  Variable IPC : dhc R MT KT OT.
  Variable ip : list MA -> list (fmod (pK P)) -> res MT.

  Lemma erase_ssm_base {KM : module K} (LMC : dhc R MA KM OA) ka kt a b ca ct :
    snd (ssm_base_t IPC ip LMC ka kt a b ca ct) =
    (do t <- ip [a] [b : fmod K]; rand_then (dh_verify LMC [ka] [a] ca) (dh_verify IPC [kt] [t] ct)).
  Proof. unfold ssm_base_t. erase. Qed.

  Lemma erase_gssm (LMC : dhc R MA KA OA) ck com b proof :
    snd (gssm_verify_t IPC ip D fuel E LMC ck com b proof) = gssm_verify LMC IPC ip D fuel E ck com b proof.
  Proof.
    destruct ck as [ka kt]. unfold gssm_verify_t, gssm_verify.
    rewrite snd_tbind. apply rbind_cong; [apply erase_recursive|intros [c t]].
    rewrite snd_tbind. apply rbind_cong; [apply erase_final_keys|intros [fa fb]].
    rewrite snd_tbind. apply rbind_cong; [apply erase_base|intros va].
    rewrite snd_tbind. apply rbind_cong; [reflexivity|intros bb].
    destruct c as [[ca cb] ct]. rewrite snd_tbind, erase_ssm_base. cbv zeta.
    destruct (ip _ _); reflexivity.
  Qed.

  Lemma erase_tssm (LMC : dhc R MA (pG2 P) OA) v kt com b proof :
    snd (tssm_verify_t IPC ip D fuel E LMC v kt com b proof) = tssm_verify LMC IPC ip D fuel E v kt com b proof.
  Proof.
    unfold tssm_verify_t, tssm_verify.
    rewrite snd_tbind. apply rbind_cong; [apply erase_recursive|intros [c t]].
    rewrite snd_tbind. apply rbind_cong; [reflexivity|intros ti]. cbv zeta.
    rewrite snd_tbind. apply rbind_cong; [reflexivity|intros t0].
    rewrite snd_tbind. apply rbind_cong; [apply erase_rand|intros ch].
    rewrite snd_tbind. apply rbind_cong; [reflexivity|intros va].
    rewrite snd_tbind. apply rbind_cong; [reflexivity|intros bb].
    destruct c as [[ca cb] ct]. rewrite snd_tbind, erase_ssm_base. destruct (ip _ _); reflexivity.
  Qed.
End EraseTipa.

Section EraseApps.
  Context {R : Type} (P : pairing).
  Variable E : penv.
  Variable D : bytes -> bytes.
  Variable fuel : nat.
  Variable rand_g1 : sampler R (pG1 P).
  Variable rand_g2 : sampler R (pG2 P).

  Lemma erase_bpc v com point eval proof :
    snd (bpc_verify_t P E D fuel rand_g2 v com point eval proof) = bpc_verify P E D fuel rand_g2 v com point eval proof.
  Proof.
    destruct point as [x y]. unfold bpc_verify_t, bpc_verify.
    rewrite snd_tbind. apply rbind_cong; [apply erase_tssm|intros va].
    rewrite snd_tbind. apply rbind_cong; reflexivity.
  Qed.

  Lemma erase_tbpc ck com point eval proof :
    snd (tbpc_verify_t P E D fuel rand_g1 rand_g2 ck com point eval proof) =
    tbpc_verify P E D fuel rand_g1 rand_g2 ck com point eval proof.
  Proof.
    destruct point as [x y], ck as [k1 k2]. unfold tbpc_verify_t, tbpc_verify.
    rewrite snd_tbind. apply rbind_cong; [apply erase_gssm|intros va].
    rewrite snd_tbind. apply rbind_cong; [apply (erase_gssm (MA := fmod (pK P)))|reflexivity].
  Qed.

  Lemma erase_ic rows rv : forall bs i g, snd (g16_ic_loop_t P E i bs rows rv g) = g16_ic_loop P E i bs rows rv g.
  Proof.
    induction bs; intros; [reflexivity|]. cbn [g16_ic_loop_t g16_ic_loop].
    rewrite snd_tbind. apply rbind_cong; [reflexivity|intros col]. rewrite snd_run_emit.
    rewrite snd_tbind. apply rbind_cong; [reflexivity|intros s]. rewrite snd_run_emit. apply IHbs.
  Qed.

  Lemma erase_ppe vk rows r z c : snd (g16_ppe_t P E vk rows r z c) = g16_ppe P E vk rows r z c.
  Proof.
    unfold g16_ppe_t, g16_ppe.
    rewrite snd_tbind. apply rbind_cong; [reflexivity|intros rs]. rewrite snd_run_emit. cbv zeta.
    rewrite snd_tbind. apply rbind_cong; [reflexivity|intros r0].
    rewrite snd_tbind. apply rbind_cong; [reflexivity|intros _].
    rewrite snd_tbind. apply rbind_cong; [reflexivity|intros rv]. rewrite snd_run_emit.
    rewrite snd_tbind. apply rbind_cong; [reflexivity|intros a0]. rewrite snd_run_emit.
    rewrite snd_tbind. apply rbind_cong; [apply erase_ic|reflexivity].
  Qed.

  Lemma erase_g16 v vk rows proof :
    snd (g16_verify_t P E D fuel rand_g1 rand_g2 v vk rows proof) = g16_verify P E D fuel rand_g1 rand_g2 v vk rows proof.
  Proof.
    unfold g16_verify_t, g16_verify.
    rewrite snd_tbind. apply rbind_cong; [apply erase_rand|intros r].
    rewrite snd_tbind. apply rbind_cong; [apply erase_tipa|intros va].
    rewrite snd_tbind. apply rbind_cong; [apply erase_tssm|intros vc].
    rewrite snd_tbind. apply rbind_cong; [apply erase_ppe|reflexivity].
  Qed.

  Variable S : stream.
  Lemma erase_sipp_loop n : forall len a b rng pv,
    snd (sipp_prove_loop_t P E S D n len a b rng pv) = sipp_prove_loop P E S D n len a b rng pv.
  Proof.
    induction n; intros; cbn [sipp_prove_loop_t sipp_prove_loop]; destruct (_ =? 1); try reflexivity.
    cbv zeta. do 4 (rewrite snd_tbind; apply rbind_cong; [reflexivity|intros ?]).
    do 2 (rewrite snd_tbind; apply rbind_cong; [reflexivity|intros ?]). rewrite snd_run_emit.
    destruct sipp_challenge as [x rng']. rewrite snd_run_emit.
    rewrite snd_tbind. apply rbind_cong; [reflexivity|intros xi]. rewrite snd_run_emit. apply IHn.
  Qed.

  Lemma erase_sipp_prove a b r v : snd (sipp_prove_t P E S D a b r v) = sipp_prove P E S D a b r v.
  Proof.
    unfold sipp_prove_t, sipp_prove. do 2 (rewrite snd_tbind; apply rbind_cong; [reflexivity|intros ?]).
    rewrite snd_run_emit. cbv zeta. rewrite snd_run_emit. apply erase_sipp_loop.
  Qed.

  Lemma erase_sipp_verify a b r v proof : snd (sipp_verify_t P E S D a b r v proof) = sipp_verify P E S D a b r v proof.
  Proof.
    unfold sipp_verify_t, sipp_verify. cbv zeta.
    do 4 (rewrite snd_tbind; apply rbind_cong; [reflexivity|intros ?]). rewrite !snd_run_emit.
    do 2 (rewrite snd_tbind; apply rbind_cong; [reflexivity|intros ?]; rewrite snd_run_emit). reflexivity.
  Qed.
End EraseApps.

(** ** Prices *)
(** the bill for a list of operations, for a price list *)
Fixpoint bill (price : op -> nat) (t : list op) : nat :=
  match t with [] => 0 | o :: t => price o + bill price t end.

Section Bill.
  Variable price : op -> nat.
  Notation bill := (bill price).

  Lemma bill_app t t' : bill (t ++ t') = bill t + bill t'.
  Proof. induction t; cbn; lia. Qed.
  Lemma bill_repeat o n : bill (repeat o n) = n * price o.
  Proof. induction n; cbn; lia. Qed.

  (** at most [n] whatever happens; at least [n] when the result satisfies [Q] *)
  Definition hi {A} (n : nat) (x : traced A) : Prop := bill (fst x) <= n.
  Definition lo {A} (Q : A -> Prop) (n : nat) (x : traced A) : Prop := forall a, snd x = Ok a -> Q a -> n <= bill (fst x).

  Lemma hi_le {A} n m (x : traced A) : hi n x -> n <= m -> hi m x.
  Proof. unfold hi. lia. Qed.
  Lemma lo_le {A} Q n m (x : traced A) : lo Q n x -> m <= n -> lo Q m x.
  Proof. unfold lo. intros H Hm a Ha HQ. specialize (H a Ha HQ). lia. Qed.
  Lemma hi_lift {A} (x : res A) : hi 0 (lift x).
  Proof. unfold hi. cbn. lia. Qed.
  Lemma lo_zero {A} Q (x : traced A) : lo Q 0 x.
  Proof. intros a _ _. lia. Qed.
  Lemma hi_emit t : hi (bill t) (emit t).
  Proof. unfold hi. cbn. lia. Qed.
  Lemma lo_emit t Q : lo Q (bill t) (emit t).
  Proof. intros a _ _. cbn. lia. Qed.

  Lemma hi_bind {A B} n m (x : traced A) (f : A -> traced B) :
    hi n x -> (forall a, snd x = Ok a -> hi m (f a)) -> hi (n + m) (tbind x f).
  Proof.
    unfold hi, tbind. intros H1 H2. destruct x as [t [a|e| |]]; cbn [fst snd] in *; try lia.
    rewrite bill_app. specialize (H2 a eq_refl). lia.
  Qed.
  Lemma lo_bind {A B} (Q1 : A -> Prop) (Q2 : B -> Prop) n m (x : traced A) (f : A -> traced B) :
    lo Q1 n x -> (forall a, snd x = Ok a -> lo Q2 m (f a)) ->
    (forall a b, snd x = Ok a -> snd (f a) = Ok b -> Q2 b -> Q1 a) -> lo Q2 (n + m) (tbind x f).
  Proof.
    unfold lo, tbind. intros H1 H2 H3 b. destruct x as [t [a|e| |]]; cbn [fst snd] in *; try discriminate.
    intros Hb HQ. rewrite bill_app. specialize (H1 a eq_refl (H3 a b eq_refl Hb HQ)). specialize (H2 a eq_refl b Hb HQ). lia.
  Qed.
  Lemma hi_run {B} t m (f : unit -> traced B) : hi m (f tt) -> hi (bill t + m) (tbind (emit t) f).
  Proof. intros H. apply hi_bind; [apply hi_emit|]. now intros []. Qed.
  Lemma hi_do {A B} m (x : res A) (f : A -> traced B) : (forall a, x = Ok a -> hi m (f a)) -> hi m (tbind (lift x) f).
  Proof. intros H. apply (hi_bind 0); [apply hi_lift|]. exact H. Qed.
  Lemma lo_run {B} Q t m (f : unit -> traced B) : lo Q m (f tt) -> lo Q (bill t + m) (tbind (emit t) f).
  Proof. intros H. apply (lo_bind (fun _ => True)); [apply lo_emit|now intros []|auto]. Qed.
  Lemma lo_do {A B} Q m (x : res A) (f : A -> traced B) : (forall a, x = Ok a -> lo Q m (f a)) -> lo Q m (tbind (lift x) f).
  Proof. intros H. apply (lo_bind (fun _ => True) Q 0); [apply lo_zero|exact H|auto]. Qed.
  Lemma lo_seq {A B} Q n m (x : traced A) (f : A -> traced B) :
    lo (fun _ => True) n x -> (forall a, snd x = Ok a -> lo Q m (f a)) -> lo Q (n + m) (tbind x f).
  Proof. intros H1 H2. apply (lo_bind (fun _ => True)); auto. Qed.

  Notation yes := (fun b : bool => b = true).
  Lemma hi_and n m a b : hi n a -> hi m b -> hi (n + m) (tand_then a b).
  Proof. intros H1 H2. apply hi_bind; auto. intros [] _; auto. unfold hi. cbn. lia. Qed.
  Lemma lo_and n m a b : lo yes n a -> lo yes m b -> lo yes (n + m) (tand_then a b).
  Proof.
    intros H1 H2. apply (lo_bind yes); auto.
    - intros [] _; auto. intros ? [= <-]. discriminate.
    - intros [] b' _; auto. cbn. intros [= <-]. discriminate.
  Qed.

  Notation "# o" := (price o) (at level 1, format "# o").

  Section G.
    Context {R : Type} {K : field}.
    Context {MA MB MT KA KB KT : module K} {OA OB OT : carrier K}.
    Variable LMC : dhc R MA KA OA.
    Variable RMC : dhc R MB KB OB.
    Variable IPC : dhc R MT KT OT.
    Variable ip : list MA -> list MB -> res MT.
    Variable D : bytes -> bytes.
    Variable fuel : nat.

    Lemma challenge_hi fu : forall n (prev : K) (c1 c2 : com3 OA OB OT),
      hi (fu * #OHash) (gipa_challenge_t D fu n prev c1 c2).
    Proof.
      induction fu; intros; [apply hi_lift|]. cbn [gipa_challenge_t].
      apply (hi_le (bill [OHash] + fu * #OHash)); [|cbn; lia]. apply hi_run, hi_do. intros d _. cbv zeta.
      destruct finverse; auto. unfold hi. cbn. lia.
    Qed.
    Lemma challenge_lo fu Q : forall n (prev : K) (c1 c2 : com3 OA OB OT),
      lo Q #OHash (gipa_challenge_t D fu n prev c1 c2).
    Proof.
      destruct fu; intros; [intros ? [=]|]. cbn [gipa_challenge_t].
      apply (lo_le _ (bill [OHash] + 0)); [|cbn; lia]. apply lo_run, lo_zero.
    Qed.

    (** what one round costs a verifier *)
    Lemma challenges_loop_hi steps : forall (com : com3 OA OB OT) t,
      hi (length steps * (fuel * #OHash + 6 * #OScaleCom)) (gipa_challenges_loop_t D fuel com t steps).
    Proof.
      induction steps as [|[c1 c2] steps IH]; intros; [apply hi_lift|]. cbn [gipa_challenges_loop_t length].
      eapply hi_le; [apply hi_bind; [apply challenge_hi|]|].
      - intros [c ci] _. apply hi_run. destruct com as [[ca cb] ct], c1 as [[a1 b1] t1], c2 as [[a2 b2] t2]. apply IH.
      - rewrite bill_repeat. lia.
    Qed.
    Lemma challenges_loop_lo Q steps : forall (com : com3 OA OB OT) t,
      lo Q (length steps * (#OHash + 6 * #OScaleCom)) (gipa_challenges_loop_t D fuel com t steps).
    Proof.
      induction steps as [|[c1 c2] steps IH]; intros; [apply lo_zero|]. cbn [gipa_challenges_loop_t length].
      eapply lo_le; [apply lo_seq; [apply challenge_lo|]|].
      - intros [c ci] _. apply lo_run. destruct com as [[ca cb] ct], c1 as [[a1 b1] t1], c2 as [[a2 b2] t2]. apply IH.
      - rewrite bill_repeat. lia.
    Qed.
    Lemma recursive_hi (com : com3 OA OB OT) (proof : gipa_proof MA MB OA OB OT) :
      hi (length (gp_steps proof) * (fuel * #OHash + 6 * #OScaleCom)) (gipa_recursive_challenges_t D fuel com proof).
    Proof.
      unfold gipa_recursive_challenges_t. eapply hi_le; [apply hi_bind; [apply challenges_loop_hi|]|].
      - intros [c t] _. apply hi_lift.
      - rewrite rev_length. lia.
    Qed.
    Lemma recursive_lo Q (com : com3 OA OB OT) (proof : gipa_proof MA MB OA OB OT) :
      lo Q (length (gp_steps proof) * (#OHash + 6 * #OScaleCom)) (gipa_recursive_challenges_t D fuel com proof).
    Proof.
      unfold gipa_recursive_challenges_t. eapply lo_le; [apply lo_seq; [apply challenges_loop_lo|]|].
      - intros [c t] _. apply lo_zero.
      - rewrite rev_length. lia.
    Qed.

    Lemma push_hi (x : K) js : forall v, hi (length js * #OPush) (push_scaled_t x js v).
    Proof.
      induction js; intros; [apply hi_lift|]. cbn [push_scaled_t length]. apply hi_do. intros y _.
      eapply hi_le; [apply hi_run; apply IHjs|]. cbn. lia.
    Qed.
    Lemma push_lo Q (x : K) js : forall v, lo Q (length js * #OPush) (push_scaled_t x js v).
    Proof.
      induction js; intros; [apply lo_zero|]. cbn [push_scaled_t length]. apply lo_do. intros y _.
      eapply lo_le; [apply lo_run; apply IHjs|]. cbn. lia.
    Qed.
    Lemma exponents_hi t : forall i (ea eb : list K),
      hi (2 * (2 ^ (i + length t) - 2 ^ i) * #OPush) (ck_exponents_t i t ea eb).
    Proof.
      induction t; intros; cbn [ck_exponents_t length]; [apply (hi_le 0); [apply hi_lift|apply Nat.le_0_l]|].
      apply hi_do. intros y _. eapply hi_le.
      - apply hi_bind; [apply push_hi|]. intros v1 _. apply hi_bind; [apply push_hi|]. intros v2 _. apply IHt.
      - rewrite seq_length. replace (i + S (length t)) with (S i + length t) by lia.
        pose proof (Nat.pow_le_mono_r 2 (S i) (S i + length t) ltac:(lia) ltac:(lia)). change (2 ^ S i) with (2 * 2 ^ i) in *.
        replace (2 ^ (S i + length t) - 2 ^ i) with ((2 ^ (S i + length t) - 2 * 2 ^ i) + 2 ^ i) by lia.
        generalize (2 ^ (S i + length t) - 2 * 2 ^ i). intros. lia.
    Qed.
    Lemma exponents_lo Q t : forall i (ea eb : list K),
      lo Q (2 * (2 ^ (i + length t) - 2 ^ i) * #OPush) (ck_exponents_t i t ea eb).
    Proof.
      induction t; intros; cbn [ck_exponents_t length]; [apply (lo_le _ 0); [apply lo_zero|rewrite Nat.add_0_r, Nat.sub_diag; lia]|].
      apply lo_do. intros y _. eapply lo_le.
      - apply lo_seq; [apply push_lo|]. intros v1 _. apply lo_seq; [apply push_lo|]. intros v2 _. apply IHt.
      - rewrite seq_length. replace (i + S (length t)) with (S i + length t) by lia.
        pose proof (Nat.pow_le_mono_r 2 (S i) (S i + length t) ltac:(lia) ltac:(lia)). change (2 ^ S i) with (2 * 2 ^ i) in *.
        replace (2 ^ (S i + length t) - 2 ^ i) with ((2 ^ (S i + length t) - 2 * 2 ^ i) + 2 ^ i) by lia.
        generalize (2 ^ (S i + length t) - 2 * 2 ^ i). intros. lia.
    Qed.

    Lemma combine_hi {M : module K} (ck : list M) exps : hi (length ck * #OScale) (ck_combine_t ck exps).
    Proof.
      unfold ck_combine_t. apply hi_do. intros k0 H0. apply hi_do. intros e0 _.
      assert (Hl : 0 < length ck) by (destruct ck; [discriminate|cbn; lia]).
      eapply hi_le; [apply hi_run; apply hi_do; intros ks Hks; apply hi_do; intros es _; eapply hi_le;
                     [apply hi_run; apply hi_lift|rewrite bill_repeat; instantiate (1 := (length ck - 1) * #OScale)]|cbn; nia].
      apply slice_from_ok in Hks as [_ ->]. rewrite skipn_length.
      rewrite Nat.add_0_r. apply Nat.mul_le_mono_r. lia.
    Qed.
    Lemma combine_lo {M : module K} Q (ck : list M) exps : lo Q (Nat.min (length ck) (length exps) * #OScale) (ck_combine_t ck exps).
    Proof.
      unfold ck_combine_t. apply lo_do. intros k0 H0. apply lo_do. intros e0 H1.
      assert (Hl : 0 < length ck) by (destruct ck; [discriminate|cbn; lia]).
      assert (Hl' : 0 < length exps) by (destruct exps; [discriminate|cbn; lia]).
      eapply lo_le; [apply lo_run; apply lo_do; intros ks Hks; apply lo_do; intros es Hes; eapply lo_le;
                     [apply lo_run; apply lo_zero|rewrite bill_repeat; instantiate (1 := (Nat.min (length ck) (length exps) - 1) * #OScale)]|cbn; nia].
      apply slice_from_ok in Hks as [_ ->]. apply slice_from_ok in Hes as [_ ->]. rewrite !skipn_length.
      rewrite Nat.add_0_r. apply Nat.mul_le_mono_r. lia.
    Qed.

    Lemma final_keys_hi {KA' KB' : module K} (ck_a : list KA') (ck_b : list KB') t :
      hi (2 * (2 ^ length t - 1) * #OPush + (length ck_a + length ck_b) * #OScale) (gipa_final_keys_t ck_a ck_b t).
    Proof.
      unfold gipa_final_keys_t. apply hi_do. intros _ _. eapply hi_le.
      - apply hi_bind; [apply exponents_hi|]. intros [ea eb] _. apply hi_do. intros _ _.
        apply hi_bind; [apply combine_hi|]. intros ka _. apply hi_bind; [apply combine_hi|]. intros kb _. apply hi_lift.
      - cbn [Nat.pow Nat.add]. lia.
    Qed.
    Lemma final_keys_lo {KA' KB' : module K} (Q : KA' * KB' -> Prop) (ck_a : list KA') (ck_b : list KB') t : length ck_b = length ck_a ->
      lo Q (2 * (2 ^ length t - 1) * #OPush + (length ck_a + length ck_b) * #OScale) (gipa_final_keys_t ck_a ck_b t).
    Proof.
      intros Hb. unfold gipa_final_keys_t. apply lo_do. intros _ _. eapply lo_le.
      - apply lo_seq; [apply exponents_lo|]. intros [ea eb] He. rewrite erase_exponents in He.
        pose proof (ck_exponents_inv _ _ _ _ _ He) as Hn. rewrite ck_exponents_ok in He by auto. injection He as <- <-.
        apply lo_do. intros [] Hl. apply rassert_ok, Nat.eqb_eq in Hl.
        eapply lo_le.
        + apply lo_seq; [apply combine_lo|]. intros ka _. apply lo_seq; [apply combine_lo|]. intros kb _. apply lo_zero.
        + instantiate (1 := (length ck_a + length ck_b) * #OScale). rewrite subs_from_length, map_length in Hl. cbn [length] in Hl.
          rewrite !subs_from_length. rewrite ?map_length. cbn [length]. rewrite Hb, Hl, Nat.min_id. lia.
      - cbn [Nat.pow Nat.add]. lia.
    Qed.

    Lemma base_hi {KB' : module K} (RMC' : dhc R MB KB' OB) ka kb kt com proof :
      hi (#(OProduct 1) + 2 * #(OCommit 1) + #(OCommitT 1)) (gipa_verify_base_t LMC RMC' IPC ip ka kb kt com proof).
    Proof.
      destruct com as [[ca cb] ct]. unfold gipa_verify_base_t. destruct (gp_base proof) as [a b].
      eapply hi_le; [apply hi_run; apply hi_do; intros t _; apply hi_and; [apply hi_run; apply hi_lift|
        apply hi_and; [apply hi_run; apply hi_lift|apply hi_run; apply hi_lift]]|cbn; lia].
    Qed.
    Lemma base_lo {KB' : module K} (RMC' : dhc R MB KB' OB) ka kb kt com proof :
      lo yes (#(OProduct 1) + 2 * #(OCommit 1) + #(OCommitT 1)) (gipa_verify_base_t LMC RMC' IPC ip ka kb kt com proof).
    Proof.
      destruct com as [[ca cb] ct]. unfold gipa_verify_base_t. destruct (gp_base proof) as [a b].
      eapply lo_le; [apply lo_run; apply lo_do; intros t _; apply lo_and; [apply lo_run; apply lo_zero|
        apply lo_and; [apply lo_run; apply lo_zero|apply lo_run; apply lo_zero]]|cbn; lia].
    Qed.
  End G.

  Lemma rand_hi {K : field} D fuel : forall n payload, hi (fuel * #OHash) (rand_challenge_t (K := K) D fuel n payload).
  Proof.
    induction fuel; intros; [apply hi_lift|]. cbn [rand_challenge_t]. eapply hi_le; [apply (hi_run _ (fuel * #OHash))|].
    - destruct f_rand; [|apply IHfuel]. unfold hi. cbn. lia.
    - cbn. lia.
  Qed.
  Lemma rand_lo {K : field} Q D fuel : forall n payload, lo Q #OHash (rand_challenge_t (K := K) D fuel n payload).
  Proof.
    destruct fuel; intros; [intros ? [=]|]. cbn [rand_challenge_t]. eapply lo_le; [apply lo_run, lo_zero|cbn; lia].
  Qed.
End Bill.

(** ** The bills of the verifiers *)
(** [tries]: how often the digest is called for one challenge *)
Definition rounds_bill (price : op -> nat) (tries rounds : nat) : nat :=
  rounds * (tries * price OHash + 6 * price OScaleCom).
Definition base_bill (price : op -> nat) (messages : nat) : nat :=
  price (OProduct 1) + messages * price (OCommit 1) + price (OCommitT 1).
Definition tipa_bill (price : op -> nat) (tries rounds : nat) : nat :=
  rounds_bill price tries rounds + tries * price OHash + 4 * price OScale + 4 * price OPairing + base_bill price 2.
Definition tssm_bill (price : op -> nat) (tries rounds : nat) : nat :=
  rounds_bill price tries rounds + tries * price OHash + 2 * price OScale + 2 * price OPairing + base_bill price 1.
(** [pushes] elements of exponent vectors, [keys] scaled elements of the commitment keys *)
Definition gipa_bill (price : op -> nat) (tries rounds pushes keys : nat) : nat :=
  rounds_bill price tries rounds + pushes * price OPush + keys * price OScale + base_bill price 2.

Notation yes := (fun b : bool => b = true).

Section TipaCost.
  Context {R : Type} {P : pairing}.
  Notation K := (pK P).
  Context {MA MB MT KA KT : module (pK P)} {OA OB OT : carrier (pK P)}.
  Variable D : bytes -> bytes.
  Variable fuel : nat.
  Variable price : op -> nat.

  Lemma opening_hi v a b t r c : hi price (2 * price OScale + 2 * price OPairing) (verify_ck_g2_kzg_opening_t (P := P) v a b t r c).
  Proof. unfold hi. cbn. lia. Qed.
  Lemma opening_lo Q v a b t r c : lo price Q (2 * price OScale + 2 * price OPairing) (verify_ck_g2_kzg_opening_t (P := P) v a b t r c).
  Proof. intros ? _ _. cbn. lia. Qed.
  Lemma opening1_hi v a b t r c : hi price (2 * price OScale + 2 * price OPairing) (verify_ck_g1_kzg_opening_t (P := P) v a b t r c).
  Proof. unfold hi. cbn. lia. Qed.
  Lemma opening1_lo Q v a b t r c : lo price Q (2 * price OScale + 2 * price OPairing) (verify_ck_g1_kzg_opening_t (P := P) v a b t r c).
  Proof. intros ? _ _. cbn. lia. Qed.

  Lemma tipa_hi (LMC : dhc R MA (pG2 P) OA) (RMC : dhc R MB (pG1 P) OB) (IPC : dhc R MT KT OT) ip v kt com proof r :
    hi price (tipa_bill price fuel (length (gp_steps (tp_gipa proof))))
      (tipa_verify_with_srs_shift_t LMC RMC IPC ip D fuel v kt com proof r).
  Proof.
    unfold tipa_verify_with_srs_shift_t. eapply hi_le.
    - apply hi_bind; [apply recursive_hi|]. intros [c t] _. apply hi_do. intros ti _.
      destruct (tp_final_ck proof) as [fa fb], (tp_final_ck_proof proof) as [pa pb].
      apply hi_do. intros t0 _. apply hi_bind; [apply rand_hi|]. intros ch _. apply hi_do. intros ri _.
      apply hi_bind; [apply opening_hi|]. intros va _. apply hi_bind; [apply opening1_hi|]. intros vb _.
      apply hi_bind; [apply base_hi|]. intros vc _. apply hi_lift.
    - unfold tipa_bill, rounds_bill, base_bill. lia.
  Qed.
  Lemma tipa_lo (LMC : dhc R MA (pG2 P) OA) (RMC : dhc R MB (pG1 P) OB) (IPC : dhc R MT KT OT) ip v kt com proof r :
    lo price yes (tipa_bill price 1 (length (gp_steps (tp_gipa proof))))
      (tipa_verify_with_srs_shift_t LMC RMC IPC ip D fuel v kt com proof r).
  Proof.
    unfold tipa_verify_with_srs_shift_t. eapply lo_le.
    - apply lo_seq; [apply recursive_lo|]. intros [c t] _. apply lo_do. intros ti _.
      destruct (tp_final_ck proof) as [fa fb], (tp_final_ck_proof proof) as [pa pb].
      apply lo_do. intros t0 _. apply lo_seq; [apply rand_lo|]. intros ch _. apply lo_do. intros ri _.
      apply lo_seq; [apply opening_lo|]. intros va _. apply lo_seq; [apply opening1_lo|]. intros vb _.
      apply (lo_bind _ yes); [apply base_lo|intros vc _; apply lo_zero|].
      cbn. intros x y _ [= <-] H. now apply andb_true_iff in H as [_ H].
    - unfold tipa_bill, rounds_bill, base_bill. lia.
  Qed.

  Variable E : penv.
  Variable IPC : dhc R MT KT OT.
  Variable ip : list MA -> list (fmod (pK P)) -> res MT.

  Lemma ssm_base_hi {KM : module K} (LMC : dhc R MA KM OA) ka kt a b ca ct :
    hi price (base_bill price 1) (ssm_base_t IPC ip LMC ka kt a b ca ct).
  Proof.
    unfold ssm_base_t. eapply hi_le; [apply hi_run, hi_do; intros t _; apply hi_and; apply hi_run, hi_lift|].
    unfold base_bill. cbn. lia.
  Qed.
  Lemma ssm_base_lo {KM : module K} (LMC : dhc R MA KM OA) ka kt a b ca ct :
    lo price yes (base_bill price 1) (ssm_base_t IPC ip LMC ka kt a b ca ct).
  Proof.
    unfold ssm_base_t. eapply lo_le; [apply lo_run, lo_do; intros t _; apply lo_and; apply lo_run, lo_zero|].
    unfold base_bill. cbn. lia.
  Qed.

  Lemma tssm_hi (LMC : dhc R MA (pG2 P) OA) v kt com b proof :
    hi price (tssm_bill price fuel (length (gp_steps (ts_gipa proof)))) (tssm_verify_t IPC ip D fuel E LMC v kt com b proof).
  Proof.
    unfold tssm_verify_t. eapply hi_le.
    - apply hi_bind; [apply recursive_hi|]. intros [c t] _. apply hi_do. intros ti _. cbv zeta.
      apply hi_do. intros t0 _. apply hi_bind; [apply rand_hi|]. intros ch _.
      apply hi_bind; [apply opening_hi|]. intros va _. apply hi_do. intros bb _. destruct c as [[ca cb] ct].
      apply hi_bind; [apply ssm_base_hi|]. intros vc _. apply hi_lift.
    - unfold tssm_bill, rounds_bill, base_bill. lia.
  Qed.
  Lemma tssm_lo (LMC : dhc R MA (pG2 P) OA) v kt com b proof :
    lo price yes (tssm_bill price 1 (length (gp_steps (ts_gipa proof)))) (tssm_verify_t IPC ip D fuel E LMC v kt com b proof).
  Proof.
    unfold tssm_verify_t. eapply lo_le.
    - apply lo_seq; [apply recursive_lo|]. intros [c t] _. apply lo_do. intros ti _. cbv zeta.
      apply lo_do. intros t0 _. apply lo_seq; [apply rand_lo|]. intros ch _.
      apply lo_seq; [apply opening_lo|]. intros va _. apply lo_do. intros bb _. destruct c as [[ca cb] ct].
      apply (lo_bind _ yes); [apply ssm_base_lo|intros vc _; apply lo_zero|].
      cbn. intros x y _ [= <-] H. now apply andb_true_iff in H as [_ H].
    - unfold tssm_bill, rounds_bill, base_bill. lia.
  Qed.

  (** the placeholder keys of the scalars are counted like keys *)
  Definition gssm_bill (tries rounds pushes keys : nat) : nat := gipa_bill price tries rounds pushes keys + base_bill price 1.

  Lemma recursive_transcript_length {MA' MB' : module K} {OA' OB' OT' : carrier K} com (proof : gipa_proof MA' MB' OA' OB' OT') c t :
    snd (gipa_recursive_challenges_t D fuel com proof) = Ok (c, t) -> length t = length (gp_steps proof).
  Proof.
    rewrite erase_recursive. intros H. apply recursive_challenges_inv in H as [cs [Hch [_ ->]]].
    rewrite rev_length. apply chain_length in Hch. now rewrite rev_length in Hch.
  Qed.

  Lemma gssm_hi (LMC : dhc R MA KA OA) ka kt com b proof :
    let k := length (gp_steps proof) in
    hi price (gssm_bill fuel k (2 * (2 ^ k - 1)) (2 * length ka)) (gssm_verify_t IPC ip D fuel E LMC (ka, kt) com b proof).
  Proof.
    intros k. unfold gssm_verify_t. eapply hi_le.
    - apply hi_bind; [apply recursive_hi|]. intros [c t] Ht. apply recursive_transcript_length in Ht. fold k in Ht.
      apply (hi_le _ (2 * (2 ^ k - 1) * price OPush + (length ka + length ka) * price OScale
                        + (price (OProduct 1) + 2 * price (OCommit 1) + price (OCommitT 1) + (base_bill price 1 + 0)))); [|apply Nat.le_refl].
      apply hi_bind; [rewrite <- Ht; eapply hi_le; [apply final_keys_hi|rewrite repeat_length; lia]|]. intros [fa fb] _.
      apply hi_bind; [apply base_hi|]. intros va _. apply hi_do. intros bb _. destruct c as [[ca cb] ct].
      apply hi_bind; [apply ssm_base_hi|]. intros vc _. apply hi_lift.
    - unfold gssm_bill, gipa_bill, rounds_bill, base_bill. fold k. lia.
  Qed.
  Lemma gssm_lo (LMC : dhc R MA KA OA) ka kt com b proof :
    let k := length (gp_steps proof) in
    lo price yes (gssm_bill 1 k (2 * (2 ^ k - 1)) (2 * length ka)) (gssm_verify_t IPC ip D fuel E LMC (ka, kt) com b proof).
  Proof.
    intros k. unfold gssm_verify_t. eapply lo_le.
    - apply lo_seq; [apply recursive_lo|]. intros [c t] Ht. apply recursive_transcript_length in Ht. fold k in Ht.
      apply (lo_le _ _ (2 * (2 ^ k - 1) * price OPush + (length ka + length ka) * price OScale
                        + (price (OProduct 1) + 2 * price (OCommit 1) + price (OCommitT 1) + (base_bill price 1 + 0)))); [|apply Nat.le_refl].
      apply lo_seq; [rewrite <- Ht; eapply lo_le; [apply final_keys_lo; now rewrite repeat_length|rewrite repeat_length; lia]|]. intros [fa fb] _.
      eapply (lo_bind _ yes); [apply base_lo| |].
      + intros va _. apply lo_do. intros bb _. destruct c as [[ca cb] ct].
        apply (lo_bind _ yes); [apply ssm_base_lo|intros vc _; apply lo_zero|].
        cbn. intros x y _ [= <-] H. now apply andb_true_iff in H as [_ H].
      + intros x y _ H1 H2. rewrite snd_tbind in H1. apply rbind_ok in H1 as [bb [_ H1]]. destruct c as [[ca cb] ct].
        rewrite snd_tbind in H1. apply rbind_ok in H1 as [vc [_ H1]]. cbn in H1. injection H1 as <-. now apply andb_true_iff in H2 as [H2 _].
    - unfold gssm_bill, gipa_bill, rounds_bill, base_bill. fold k. lia.
  Qed.
End TipaCost.

Section GipaCost.
  Context {R : Type} {K : field}.
  Context {MA MB MT KA KB KT : module K} {OA OB OT : carrier K}.
  Variable LMC : dhc R MA KA OA.
  Variable RMC : dhc R MB KB OB.
  Variable IPC : dhc R MT KT OT.
  Variable ip : list MA -> list MB -> res MT.
  Variable D : bytes -> bytes.
  Variable fuel : nat.
  Variable price : op -> nat.

  Lemma recursive_len com (proof : gipa_proof MA MB OA OB OT) c t :
    snd (gipa_recursive_challenges_t D fuel com proof) = Ok (c, t) -> length t = length (gp_steps proof).
  Proof.
    rewrite erase_recursive. intros H. apply recursive_challenges_inv in H as [cs [Hch [_ ->]]].
    rewrite rev_length. apply chain_length in Hch. now rewrite rev_length in Hch.
  Qed.

  Lemma gipa_hi ka kb kt com proof :
    let k := length (gp_steps proof) in
    hi price (gipa_bill price fuel k (2 * (2 ^ k - 1)) (length ka + length kb)) (gipa_verify_t LMC RMC IPC ip D fuel (ka, kb, kt) com proof).
  Proof.
    intros k. unfold gipa_verify_t. destruct (_ || _)%bool; [unfold hi; cbn; apply Nat.le_0_l|]. eapply hi_le.
    - apply hi_bind; [apply recursive_hi|]. intros [c t] Ht. apply recursive_len in Ht. fold k in Ht.
      apply (hi_le _ (2 * (2 ^ k - 1) * price OPush + (length ka + length kb) * price OScale
                        + (price (OProduct 1) + 2 * price (OCommit 1) + price (OCommitT 1)))); [|apply Nat.le_refl].
      apply hi_bind; [rewrite <- Ht; apply final_keys_hi|]. intros [fa fb] _. apply base_hi.
    - unfold gipa_bill, rounds_bill, base_bill. fold k. lia.
  Qed.
  Lemma gipa_lo ka kb kt com proof :
    let k := length (gp_steps proof) in
    lo price yes (gipa_bill price 1 k (2 * (2 ^ k - 1)) (length ka + length kb)) (gipa_verify_t LMC RMC IPC ip D fuel (ka, kb, kt) com proof).
  Proof.
    intros k. unfold gipa_verify_t. destruct (_ || _)%bool eqn:Eg; [intros ? [=]|].
    apply orb_false_iff in Eg as [_ Eg]. apply negb_false_iff, Nat.eqb_eq in Eg. eapply lo_le.
    - apply lo_seq; [apply recursive_lo|]. intros [c t] Ht. apply recursive_len in Ht. fold k in Ht.
      apply (lo_le _ _ (2 * (2 ^ k - 1) * price OPush + (length ka + length kb) * price OScale
                        + (price (OProduct 1) + 2 * price (OCommit 1) + price (OCommitT 1)))); [|apply Nat.le_refl].
      apply lo_seq; [rewrite <- Ht; apply final_keys_lo; congruence|]. intros [fa fb] _. apply base_lo.
    - unfold gipa_bill, rounds_bill, base_bill. fold k. lia.
  Qed.
End GipaCost.

Section AppsCost.
  Context {R : Type} (P : pairing).
  Notation K := (pK P).
  Variable E : penv.
  Variable D : bytes -> bytes.
  Variable fuel : nat.
  Variable rand_g1 : sampler R (pG1 P).
  Variable rand_g2 : sampler R (pG2 P).
  Variable price : op -> nat.

  Lemma bpc_hi v com point eval proof :
    hi price (tssm_bill price fuel (length (gp_steps (ts_gipa (op_ip proof)))) + 2 * price OScale + 2 * price OPairing)
      (bpc_verify_t P E D fuel rand_g2 v com point eval proof).
  Proof.
    destruct point as [x y]. unfold bpc_verify_t. eapply hi_le.
    - apply hi_bind; [apply tssm_hi|]. intros va _. apply hi_bind; [|intros vb _; apply hi_lift].
      instantiate (1 := 2 * price OScale + 2 * price OPairing). unfold hi. cbn. lia.
    - lia.
  Qed.
  Lemma bpc_lo v com point eval proof :
    lo price yes (tssm_bill price 1 (length (gp_steps (ts_gipa (op_ip proof)))) + 2 * price OScale + 2 * price OPairing)
      (bpc_verify_t P E D fuel rand_g2 v com point eval proof).
  Proof.
    destruct point as [x y]. unfold bpc_verify_t. eapply lo_le.
    - eapply (lo_bind _ yes yes _ (2 * price OScale + 2 * price OPairing)); [apply tssm_lo| |].
      + intros va _. intros ? _ _. cbn. lia.
      + intros a b _ H1 H2. cbn in H1. injection H1 as <-. now apply andb_true_iff in H2 as [H2 _].
    - lia.
  Qed.

  Lemma tbpc_hi k1 k2 com point eval proof :
    let a := length (gp_steps (to_first proof)) in
    let b := length (gp_steps (to_second proof)) in
    hi price (gssm_bill price fuel a (2 * (2 ^ a - 1)) (2 * length k1) + gssm_bill price fuel b (2 * (2 ^ b - 1)) (2 * length k2))
      (tbpc_verify_t P E D fuel rand_g1 rand_g2 (k1, k2) com point eval proof).
  Proof.
    destruct point as [x y]. intros a b. unfold tbpc_verify_t. eapply hi_le.
    - apply hi_bind; [apply gssm_hi|]. intros va _. apply hi_bind; [apply (gssm_hi (MA := fmod (pK P)))|intros vb _; apply hi_lift].
    - fold a b. lia.
  Qed.
  Lemma tbpc_lo k1 k2 com point eval proof :
    let a := length (gp_steps (to_first proof)) in
    let b := length (gp_steps (to_second proof)) in
    lo price yes (gssm_bill price 1 a (2 * (2 ^ a - 1)) (2 * length k1) + gssm_bill price 1 b (2 * (2 ^ b - 1)) (2 * length k2))
      (tbpc_verify_t P E D fuel rand_g1 rand_g2 (k1, k2) com point eval proof).
  Proof.
    destruct point as [x y]. intros a b. unfold tbpc_verify_t. eapply lo_le.
    - eapply (lo_bind _ yes yes); [apply gssm_lo| |].
      + intros va _. apply (lo_bind _ yes); [apply (gssm_lo (MA := fmod (pK P)))|intros; apply lo_zero|].
        cbn. intros ? ? _ [= <-] H. now apply andb_true_iff in H as [_ H].
      + intros u w _ H1 H2. rewrite snd_tbind in H1. apply rbind_ok in H1 as [vb [_ H1]]. cbn in H1. injection H1 as <-. now apply andb_true_iff in H2 as [H2 _].
    - fold a b. lia.
  Qed.

  Lemma ic_hi rows rv : forall bs i g,
    hi price (length bs * (price (OProduct (length rows)) + price OScale)) (g16_ic_loop_t P E i bs rows rv g).
  Proof.
    induction bs; intros; [apply hi_lift|]. cbn [g16_ic_loop_t length].
    apply hi_do. intros col Hc. apply rmapM_ok_length in Hc. eapply hi_le.
    - apply hi_run, hi_do. intros s _. apply hi_run, IHbs.
    - cbn. rewrite Hc. lia.
  Qed.
  Lemma ic_lo Q rows rv : forall bs i g,
    lo price Q (length bs * (price (OProduct (length rows)) + price OScale)) (g16_ic_loop_t P E i bs rows rv g).
  Proof.
    induction bs; intros; [apply lo_zero|]. cbn [g16_ic_loop_t length].
    apply lo_do. intros col Hc. apply rmapM_ok_length in Hc. eapply lo_le.
    - apply lo_run, lo_do. intros s _. apply lo_run, IHbs.
    - cbn. rewrite Hc. lia.
  Qed.

  (** [n] statements with [l] public inputs each *)
  Definition ppe_bill (n l : nat) : nat :=
    3 * price OPairing + (2 + l) * price OScale + n * price OPush + l * price (OProduct n).

  Lemma ppe_hi vk rows r z c :
    hi price (ppe_bill (length rows) (length (vk_gamma_abc_g1 vk) - 1)) (g16_ppe_t P E vk rows r z c).
  Proof.
    unfold g16_ppe_t. apply hi_do. intros rs _. cbv zeta.
    apply (hi_le _ (bill price [OScale; OPairing] + (length rows * price OPush + (price OScale +
             ((length (vk_gamma_abc_g1 vk) - 1) * (price (OProduct (length rows)) + price OScale) + 2 * price OPairing)))));
      [|unfold ppe_bill; cbn; lia].
    apply hi_run, hi_do. intros row0 H0. apply hi_do. intros _ _. apply hi_do. intros rv Hrv.
    rewrite structured_scalar_power_spec in Hrv. injection Hrv as Hrv.
    assert (Hl : length rv = length rows).
    { rewrite <- Hrv, map_length, seq_length. destruct rows; [discriminate|cbn; lia]. }
    eapply hi_le.
    - apply hi_run, hi_do. intros a0 _. apply hi_run. apply hi_bind; [apply ic_hi|]. intros g _. apply hi_run, hi_lift.
    - rewrite bill_repeat, Hl, skipn_length. cbn. lia.
  Qed.
  Lemma ppe_lo Q vk rows r z c :
    lo price Q (ppe_bill (length rows) (length (vk_gamma_abc_g1 vk) - 1)) (g16_ppe_t P E vk rows r z c).
  Proof.
    unfold g16_ppe_t. apply lo_do. intros rs _. cbv zeta.
    apply (lo_le _ _ (bill price [OScale; OPairing] + (length rows * price OPush + (price OScale +
             ((length (vk_gamma_abc_g1 vk) - 1) * (price (OProduct (length rows)) + price OScale) + 2 * price OPairing)))));
      [|unfold ppe_bill; cbn; lia].
    apply lo_run, lo_do. intros row0 H0. apply lo_do. intros _ _. apply lo_do. intros rv Hrv.
    rewrite structured_scalar_power_spec in Hrv. injection Hrv as Hrv.
    assert (Hl : length rv = length rows).
    { rewrite <- Hrv, map_length, seq_length. destruct rows; [discriminate|cbn; lia]. }
    eapply lo_le.
    - apply lo_run, lo_do. intros a0 _. apply lo_run. apply lo_seq; [apply ic_lo|]. intros g _. apply lo_run, lo_zero.
    - rewrite bill_repeat, Hl, skipn_length. cbn. lia.
  Qed.

  Definition g16_bill (tries ab c n l : nat) : nat :=
    tries * price OHash + tipa_bill price tries ab + tssm_bill price tries c + ppe_bill n l.

  Lemma g16_hi v vk rows proof :
    hi price (g16_bill fuel (length (gp_steps (tp_gipa (ag_tipa_ab proof)))) (length (gp_steps (ts_gipa (ag_tipa_c proof))))
               (length rows) (length (vk_gamma_abc_g1 vk) - 1))
      (g16_verify_t P E D fuel rand_g1 rand_g2 v vk rows proof).
  Proof.
    unfold g16_verify_t. eapply hi_le.
    - apply hi_bind; [apply rand_hi|]. intros r _. apply hi_bind; [apply tipa_hi|]. intros va _.
      apply hi_bind; [apply tssm_hi|]. intros vc _. apply hi_bind; [apply ppe_hi|intros; apply hi_lift].
    - unfold g16_bill. lia.
  Qed.
  Lemma g16_lo v vk rows proof :
    lo price yes (g16_bill 1 (length (gp_steps (tp_gipa (ag_tipa_ab proof)))) (length (gp_steps (ts_gipa (ag_tipa_c proof))))
               (length rows) (length (vk_gamma_abc_g1 vk) - 1))
      (g16_verify_t P E D fuel rand_g1 rand_g2 v vk rows proof).
  Proof.
    unfold g16_verify_t. eapply lo_le.
    - apply lo_seq; [apply rand_lo|]. intros r _. eapply (lo_bind _ yes yes); [apply tipa_lo| |].
      + intros va _. eapply (lo_bind _ yes yes); [apply tssm_lo| |].
        * intros vc _. apply lo_seq; [apply ppe_lo|intros; apply lo_zero].
        * intros a b _ H1 H2. rewrite snd_tbind in H1. apply rbind_ok in H1 as [vp [_ H1]]. cbn in H1. injection H1 as <-.
          now apply andb_true_iff in H2 as [H2 _]; apply andb_true_iff in H2 as [_ H2].
      + intros a b _ H1 H2. rewrite snd_tbind in H1. apply rbind_ok in H1 as [vc [_ H1]].
        rewrite snd_tbind in H1. apply rbind_ok in H1 as [vp [_ H1]]. cbn in H1. injection H1 as <-.
        now apply andb_true_iff in H2 as [H2 _]; apply andb_true_iff in H2 as [H2 _].
    - unfold g16_bill. lia.
  Qed.
End AppsCost.

(** ** The bills of the provers *)
(** sum of [f 1, f 2, f 4, ..., f (2^(k-1))] *)
Definition halves (k : nat) (f : nat -> nat) : nat := list_sum (map (fun j => f (2 ^ j)) (seq 0 k)).
Lemma halves_S k f : halves (S k) f = f (2 ^ k) + halves k f.
Proof. unfold halves. rewrite seq_S, map_app, list_sum_app. cbn. lia. Qed.

(** one round of the GIPA prover with vectors of length 2 h *)
Definition prove_round_bill (price : op -> nat) (tries h : nat) : nat :=
  tries * price OHash + 4 * price (OCommit h) + 2 * price (OProduct h) + 2 * price (OCommitT 1) + 4 * h * price OScale.

Section ProverCost.
  Context {R : Type} {K : field}.
  Context {MA MB MT KA KB KT : module K} {OA OB OT : carrier K}.
  Variable LMC : dhc R MA KA OA.
  Variable RMC : dhc R MB KB OB.
  Variable IPC : dhc R MT KT OT.
  Variable ip : list MA -> list MB -> res MT.
  Variable D : bytes -> bytes.
  Variable fuel : nat.
  Variable price : op -> nat.

  Lemma commit3_hi ka ma kb mb kt :
    hi price (price (OCommit (length ma)) + price (OCommit (length mb)) + price (OProduct (length ma)) + price (OCommitT 1))
      (gipa_commit3_t LMC RMC IPC ip ka ma kb mb kt).
  Proof.
    unfold gipa_commit3_t. eapply hi_le.
    - apply hi_run, hi_do. intros a _. apply hi_run, hi_do. intros b _. apply hi_run, hi_do. intros v _.
      apply hi_run, hi_do. intros t _. apply hi_lift.
    - cbn. lia.
  Qed.
  Lemma commit3_lo Q ka ma kb mb kt :
    lo price Q (price (OCommit (length ma)) + price (OCommit (length mb)) + price (OProduct (length ma)) + price (OCommitT 1))
      (gipa_commit3_t LMC RMC IPC ip ka ma kb mb kt).
  Proof.
    unfold gipa_commit3_t. eapply lo_le.
    - apply lo_run, lo_do. intros a _. apply lo_run, lo_do. intros b _. apply lo_run, lo_do. intros v _.
      apply lo_run, lo_do. intros t _. apply lo_zero.
    - cbn. lia.
  Qed.
  Lemma rescale_hi {M : module K} x (l1 l2 : list M) h : length l1 = h -> length l2 = h -> hi price (h * price OScale) (rescale_t x l1 l2).
  Proof. intros <- H2. unfold hi. cbn. rewrite bill_app, bill_repeat, H2, Nat.min_id. cbn. lia. Qed.
  Lemma rescale_lo {M : module K} Q x (l1 l2 : list M) h : length l1 = h -> length l2 = h -> lo price Q (h * price OScale) (rescale_t x l1 l2).
  Proof. intros <- H2 ? _ _. cbn. rewrite bill_app, bill_repeat, H2, Nat.min_id. cbn. lia. Qed.

  Lemma half_len {A} (l x : list A) k : length l = 2 ^ S k -> slice_from l (2 ^ k) = Ok x -> length x = 2 ^ k.
  Proof. intros Hl H. apply slice_from_ok in H as [_ ->]. rewrite skipn_length, Hl. cbn. lia. Qed.
  Lemma half_len' {A} (l x : list A) k : length l = 2 ^ S k -> slice_to l (2 ^ k) = Ok x -> length x = 2 ^ k.
  Proof. intros Hl H. apply slice_to_ok in H as [_ ->]. rewrite firstn_length, Hl. cbn. lia. Qed.

  Lemma prove_loop_cost k : forall n m_a m_b ck_a ck_b ck_t st tr,
    length m_a = 2 ^ k -> length m_b = 2 ^ k -> length ck_a = 2 ^ k -> length ck_b = 2 ^ k ->
    hi price (halves k (prove_round_bill price fuel)) (gipa_prove_loop_t LMC RMC IPC ip D fuel n m_a m_b ck_a ck_b ck_t st tr) /\
    lo price (fun _ => True) (halves k (prove_round_bill price 1)) (gipa_prove_loop_t LMC RMC IPC ip D fuel n m_a m_b ck_a ck_b ck_t st tr).
  Proof.
    induction k as [|k IH]; intros n m_a m_b ck_a ck_b ck_t st tr Ha Hb Hka Hkb.
    - assert (E1 : (length m_a =? 1) = true) by (apply Nat.eqb_eq; exact Ha).
      split; [|apply lo_zero]. destruct n; cbn [gipa_prove_loop_t]; rewrite E1; apply hi_lift.
    - assert (E1 : (length m_a =? 1) = false).
      { apply Nat.eqb_neq. rewrite Ha. cbn [Nat.pow]. pose proof (pow2_pos k). lia. }
      assert (E2 : length m_a / 2 = 2 ^ k) by (rewrite Ha; cbn [Nat.pow]; rewrite Nat.mul_comm; apply Nat.div_mul; lia).
      destruct n; cbn [gipa_prove_loop_t]; rewrite E1; [split; [eapply hi_le; [apply hi_lift|apply Nat.le_0_l]|intros ? [=]]|].
      cbv zeta. rewrite E2, !halves_S. split.
      + apply hi_do. intros m_a_1 H1. apply hi_do. intros m_a_2 H2. apply hi_do. intros ck_a_1 H3. apply hi_do. intros ck_a_2 H4.
        apply hi_do. intros m_b_1 H5. apply hi_do. intros m_b_2 H6. apply hi_do. intros ck_b_1 H7. apply hi_do. intros ck_b_2 H8.
        apply half_len in H1, H4, H6, H7; auto. apply half_len' in H2, H3, H5, H8; auto.
        eapply hi_le.
        * apply hi_bind; [apply commit3_hi|]. intros c1 _. apply hi_bind; [apply commit3_hi|]. intros c2 _.
          apply hi_bind; [apply challenge_hi|]. intros [c ci] _.
          apply hi_bind; [apply (rescale_hi _ _ _ (2 ^ k)); auto|]. intros xa [= <-].
          apply hi_bind; [apply (rescale_hi _ _ _ (2 ^ k)); auto|]. intros xb [= <-].
          apply hi_bind; [apply (rescale_hi _ _ _ (2 ^ k)); auto|]. intros xka [= <-].
          apply hi_bind; [apply (rescale_hi _ _ _ (2 ^ k)); auto|]. intros xkb [= <-].
          apply IH; unfold rescale; rewrite zipw_length; lia.
        * unfold prove_round_bill. rewrite H1, H2, H5, H6. lia.
      + apply lo_do. intros m_a_1 H1. apply lo_do. intros m_a_2 H2. apply lo_do. intros ck_a_1 H3. apply lo_do. intros ck_a_2 H4.
        apply lo_do. intros m_b_1 H5. apply lo_do. intros m_b_2 H6. apply lo_do. intros ck_b_1 H7. apply lo_do. intros ck_b_2 H8.
        apply half_len in H1, H4, H6, H7; auto. apply half_len' in H2, H3, H5, H8; auto.
        eapply lo_le.
        * apply lo_seq; [apply commit3_lo|]. intros c1 _. apply lo_seq; [apply commit3_lo|]. intros c2 _.
          apply lo_seq; [apply challenge_lo|]. intros [c ci] _.
          apply lo_seq; [apply (rescale_lo _ _ _ _ (2 ^ k)); auto|]. intros xa [= <-].
          apply lo_seq; [apply (rescale_lo _ _ _ _ (2 ^ k)); auto|]. intros xb [= <-].
          apply lo_seq; [apply (rescale_lo _ _ _ _ (2 ^ k)); auto|]. intros xka [= <-].
          apply lo_seq; [apply (rescale_lo _ _ _ _ (2 ^ k)); auto|]. intros xkb [= <-].
          apply IH; unfold rescale; rewrite zipw_length; lia.
        * unfold prove_round_bill. rewrite H1, H2, H5, H6. lia.
  Qed.

  Lemma prove_cost k a b ka kb kt :
    length a = 2 ^ k -> length b = 2 ^ k -> length ka = 2 ^ k -> length kb = 2 ^ k ->
    hi price (halves k (prove_round_bill price fuel)) (gipa_prove_with_aux_t LMC RMC IPC ip D fuel (a, b) (ka, kb, kt)) /\
    lo price (fun _ => True) (halves k (prove_round_bill price 1)) (gipa_prove_with_aux_t LMC RMC IPC ip D fuel (a, b) (ka, kb, kt)).
  Proof.
    intros Ha Hb Hka Hkb. unfold gipa_prove_with_aux_t. split.
    - apply hi_do. intros _ _. eapply hi_le.
      + apply hi_bind; [apply (proj1 (prove_loop_cost k _ _ _ _ _ _ _ _ Ha Hb Hka Hkb))|]. intros [[[m c] s] t] _. apply hi_lift.
      + lia.
    - apply lo_do. intros _ _. eapply lo_le.
      + apply lo_seq; [apply (proj2 (prove_loop_cost k _ _ _ _ _ _ _ _ Ha Hb Hka Hkb))|]. intros [[[m c] s] t] _. apply lo_zero.
      + lia.
  Qed.
End ProverCost.

(** one round of the SIPP prover with vectors of length 2 h *)
Definition sipp_round_bill (price : op -> nat) (h : nat) : nat :=
  price OHash + 2 * price (OProduct h) + 4 * h * price OScale.

Section SippCost.
  Variable P : pairing.
  Variable E : penv.
  Variable S : stream.
  Variable D : bytes -> bytes.
  Variable price : op -> nat.

  Lemma pop_hi (a : list (pG1 P)) b : hi price (length a * price OScale + price (OProduct (length a))) (product_of_pairings_t P E a b).
  Proof. unfold hi, product_of_pairings_t. cbn. rewrite !bill_app, bill_repeat. cbn. lia. Qed.
  Lemma pop_lo Q (a : list (pG1 P)) b : lo price Q (length a * price OScale + price (OProduct (length a))) (product_of_pairings_t P E a b).
  Proof. intros ? _ _. unfold product_of_pairings_t. cbn. rewrite !bill_app, bill_repeat. cbn. lia. Qed.

  Lemma sipp_loop_cost k : forall n (a : list (pG1 P)) (b : list (pG2 P)) rng pv,
    length a = 2 ^ k -> length b = 2 ^ k ->
    hi price (halves k (sipp_round_bill price)) (sipp_prove_loop_t P E S D n (2 ^ k) a b rng pv) /\
    lo price (fun _ => True) (halves k (sipp_round_bill price)) (sipp_prove_loop_t P E S D n (2 ^ k) a b rng pv).
  Proof.
    induction k as [|k IH]; intros n a b rng pv Ha Hb.
    - split; [|apply lo_zero]. destruct n; cbn [sipp_prove_loop_t Nat.pow Nat.eqb]; apply hi_lift.
    - assert (E1 : (2 ^ Datatypes.S k =? 1) = false).
      { apply Nat.eqb_neq. cbn [Nat.pow]. pose proof (pow2_pos k). lia. }
      assert (E2 : 2 ^ Datatypes.S k / 2 = 2 ^ k) by (cbn [Nat.pow]; rewrite Nat.mul_comm; apply Nat.div_mul; lia).
      destruct n; cbn [sipp_prove_loop_t]; rewrite E1; [split; [eapply hi_le; [apply hi_lift|apply Nat.le_0_l]|intros ? [=]]|].
      cbv zeta. rewrite E2, !halves_S. split.
      + apply hi_do. intros al H1. apply hi_do. intros ar H2. apply hi_do. intros bl H3. apply hi_do. intros br H4.
        apply half_len in H2, H4; auto. apply half_len' in H1, H3; auto.
        eapply hi_le.
        * apply hi_bind; [apply pop_hi|]. intros zl _. apply hi_bind; [apply pop_hi|]. intros zr _. apply hi_run.
          destruct (sipp_challenge P S D rng zl zr) as [x rng']. apply hi_run, hi_do. intros xi _. apply hi_run.
          apply IH; rewrite zipw_length; lia.
        * unfold sipp_round_bill. rewrite !bill_repeat, H1, H2, H3, H4, Nat.min_id. cbn. lia.
      + apply lo_do. intros al H1. apply lo_do. intros ar H2. apply lo_do. intros bl H3. apply lo_do. intros br H4.
        apply half_len in H2, H4; auto. apply half_len' in H1, H3; auto.
        eapply lo_le.
        * apply lo_seq; [apply pop_lo|]. intros zl _. apply lo_seq; [apply pop_lo|]. intros zr _. apply lo_run.
          destruct (sipp_challenge P S D rng zl zr) as [x rng']. apply lo_run, lo_do. intros xi _. apply lo_run.
          apply IH; rewrite zipw_length; lia.
        * unfold sipp_round_bill. rewrite !bill_repeat, H1, H2, H3, H4, Nat.min_id. cbn. lia.
  Qed.

  Lemma sipp_prove_cost k (a : list (pG1 P)) (b : list (pG2 P)) r v : length a = 2 ^ k -> length b = 2 ^ k -> 2 ^ k <= length r ->
    let n := price OHash + 2 ^ k * price OScale + halves k (sipp_round_bill price) in
    hi price n (sipp_prove_t P E S D a b r v) /\ lo price (fun _ => True) n (sipp_prove_t P E S D a b r v).
  Proof.
    intros Ha Hb Hr n. unfold sipp_prove_t. assert (Hz : length (zipw (fun (a : pG1 P) (r : pK P) => r *m a) a r) = 2 ^ k) by (rewrite zipw_length; lia).
    split.
    - apply hi_do. intros _ _. apply hi_do. intros _ _. eapply hi_le.
      + apply hi_run. cbv zeta. apply hi_run. rewrite Ha. apply sipp_loop_cost; auto.
      + rewrite bill_repeat, Ha. rewrite Nat.min_l by lia. unfold n. cbn. lia.
    - apply lo_do. intros _ _. apply lo_do. intros _ _. eapply lo_le.
      + apply lo_run. cbv zeta. apply lo_run. rewrite Ha. apply sipp_loop_cost; auto.
      + rewrite bill_repeat, Ha. rewrite Nat.min_l by lia. unfold n. cbn. lia.
  Qed.

  Lemma challenges_len pr : forall rng, length (sipp_challenges P S D rng pr) = length pr.
  Proof. induction pr as [|[zl zr] pr IH]; intros; cbn [sipp_challenges]; [reflexivity|]. destruct sipp_challenge. cbn. now rewrite IH. Qed.

  Definition sipp_verify_bill (n k : nat) : nat :=
    (1 + k) * price OHash + 2 * k * price OScaleCom + 2 * price (OMsm n) + price OPairing.

  Lemma sipp_verify_hi a b r v proof :
    hi price (sipp_verify_bill (length a) (length proof)) (sipp_verify_t P E S D a b r v proof).
  Proof.
    unfold sipp_verify_t. cbv zeta. apply hi_do. intros [] _. apply hi_do. intros [] _. apply hi_do. intros [] Hb. apply hi_do. intros [] _.
    apply rassert_ok, Nat.eqb_eq in Hb. eapply hi_le.
    - apply hi_run, hi_run, hi_run, hi_run, hi_do. intros ap _. apply hi_run, hi_do. intros bp _. apply hi_run, hi_lift.
    - rewrite !bill_repeat, map_length, challenges_len, !Nat.min_id, <- Hb. unfold sipp_verify_bill. cbn. lia.
  Qed.
  Lemma sipp_verify_lo Q a b r v proof :
    lo price Q (sipp_verify_bill (length a) (length proof)) (sipp_verify_t P E S D a b r v proof).
  Proof.
    unfold sipp_verify_t. cbv zeta. apply lo_do. intros [] _. apply lo_do. intros [] _. apply lo_do. intros [] Hb. apply lo_do. intros [] _.
    apply rassert_ok, Nat.eqb_eq in Hb. eapply lo_le.
    - apply lo_run, lo_run, lo_run, lo_run, lo_do. intros ap _. apply lo_run, lo_do. intros bp _. apply lo_run, lo_zero.
    - rewrite !bill_repeat, map_length, challenges_len, !Nat.min_id, <- Hb. unfold sipp_verify_bill. cbn. lia.
  Qed.
End SippCost.

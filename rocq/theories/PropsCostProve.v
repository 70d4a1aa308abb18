(** C93: how many expensive operations TIPA proving, committing, opening, aggregating and the setups perform. *)
Require Import List Arith NArith ZArith Lia Bool.
Import ListNotations.
Require Import Verif.Outcome Verif.Algebra Verif.Zp Verif.Rust Verif.InnerProducts Verif.Commitments
  Verif.Poly Verif.Gipa Verif.Tipa Verif.Ssm Verif.Floats Verif.PolyCommit Verif.Transparent Verif.Rng Verif.Sipp Verif.Groth16
  Verif.Cost Verif.CostProve
  Verif.Spec Verif.ListFacts Verif.RustFacts Verif.InnerProductFacts Verif.CommitFacts
  Verif.GipaFacts Verif.GipaComplete Verif.GipaTop Verif.PolyFacts Verif.KeyFacts Verif.SerFacts Verif.FloatFacts Verif.SippFacts Verif.CostFacts
  Verif.PropsBase Verif.PropsGipa Verif.PropsTipa Verif.PropsSsm Verif.PropsPoly Verif.PropsSipp Verif.PropsGroth Verif.PropsProvers Verif.PropsCost.

(** number of bases in multi-exponentiations *)
Definition exponentiated (t : list op) : nat := bill (fun o => match o with OMsm n => n | _ => 0 end) t.

(** ** The instrumented programs are the programs of the model *)
Lemma erase_map {A B} (f : A -> traced B) g l : (forall x, snd (f x) = g x) -> snd (tmapM f l) = rmapM g l.
Proof.
  intros H. induction l as [|x l IH]; [reflexivity|]. cbn [tmapM rmapM].
  rewrite snd_tbind. apply rbind_cong; [apply H|intros y]. rewrite snd_tbind. apply rbind_cong; [exact IH|reflexivity].
Qed.

Lemma erase_generators {K} {G : module K} num (g : G) s :
  snd (structured_generators_scalar_power_t num g s) = structured_generators_scalar_power num g s.
Proof. unfold structured_generators_scalar_power_t, structured_generators_scalar_power. erase. Qed.

Lemma erase_coefficients {K : field} t : forall i (p : K) c, snd (coefficients_loop_t i t p c) = coefficients_loop i t p c.
Proof.
  induction t; intros; [reflexivity|]. cbn [coefficients_loop_t coefficients_loop].
  rewrite snd_tbind. apply rbind_cong; [apply erase_push|]. intros v. apply IHt.
Qed.

Lemma erase_key_poly {K : field} t (r : K) :
  snd (poly_coefficients_from_transcript_t t r) = poly_coefficients_from_transcript t r.
Proof.
  unfold poly_coefficients_from_transcript_t, poly_coefficients_from_transcript.
  rewrite snd_tbind. apply rbind_cong; [apply erase_coefficients|reflexivity].
Qed.

Lemma erase_opening {K} {G : module K} (srs : list G) t r c :
  snd (prove_ck_kzg_opening_t srs t r c) = prove_ck_kzg_opening srs t r c.
Proof.
  unfold prove_ck_kzg_opening_t, prove_ck_kzg_opening.
  rewrite snd_tbind. apply rbind_cong; [apply erase_key_poly|intros l]. cbv zeta. erase.
Qed.

Section EraseTipa.
  Context {R : Type} {P : pairing}.
  Notation K := (pK P).
  Context {MA MB MT KA KT : module (pK P)} {OA OB OT : carrier (pK P)}.
  Variables (D : bytes -> bytes) (fuel : nat).

  Lemma erase_tipa_setup (IPC : dhc R MT KT OT) rand rng size : snd (tipa_setup_t IPC rand rng size) = tipa_setup IPC rand rng size.
  Proof.
    unfold tipa_setup_t, tipa_setup. destruct (rand rng) as [al r1], (rand r1) as [be r2].
    rewrite snd_tbind. apply rbind_cong; [reflexivity|intros _].
    rewrite snd_tbind. apply rbind_cong; [apply erase_generators|intros ga].
    rewrite snd_tbind. apply rbind_cong; [apply erase_generators|intros hb].
    rewrite snd_run_emit, snd_tbind. apply rbind_cong; [reflexivity|intros [kt r3]].
    rewrite snd_tbind. apply rbind_cong; reflexivity.
  Qed.

  Lemma erase_tipa_prove (LMC : dhc R MA (pG2 P) OA) (RMC : dhc R MB (pG1 P) OB) (IPC : dhc R MT KT OT) ip s values ck r :
    snd (tipa_prove_with_srs_shift_t LMC RMC IPC ip D fuel s values ck r) =
    tipa_prove_with_srs_shift LMC RMC IPC ip D fuel s values ck r.
  Proof.
    destruct ck as [[ka kb] kt]. unfold tipa_prove_with_srs_shift_t, tipa_prove_with_srs_shift.
    rewrite snd_tbind. apply rbind_cong; [apply erase_prove|intros [p aux]].
    destruct (ga_ck_base aux) as [fa fb]. cbv zeta.
    rewrite snd_tbind. apply rbind_cong; [reflexivity|intros ti].
    rewrite snd_tbind. apply rbind_cong; [reflexivity|intros ri].
    rewrite snd_tbind. apply rbind_cong; [reflexivity|intros t0].
    rewrite snd_tbind. apply rbind_cong; [apply erase_rand|intros c].
    rewrite snd_tbind. apply rbind_cong; [apply erase_opening|intros o1].
    rewrite snd_tbind. apply rbind_cong; [apply erase_opening|reflexivity].
  Qed.

  Lemma erase_gssm_prove (LMC : dhc R MA KA OA) (IPC : dhc R MT KT OT) ip values ck :
    snd (gssm_prove_t IPC ip D fuel LMC values ck) = gssm_prove LMC IPC ip D fuel values ck.
  Proof.
    destruct ck as [ka kt]. unfold gssm_prove_t, gssm_prove.
    rewrite snd_tbind. apply rbind_cong; [apply erase_prove|intros [p aux]]. reflexivity.
  Qed.

  Lemma erase_tssm_prove (LMC : dhc R MA (pG2 P) OA) (IPC : dhc R MT KT OT) ip s values ck :
    snd (tssm_prove_t IPC ip D fuel LMC s values ck) = tssm_prove LMC IPC ip D fuel s values ck.
  Proof.
    destruct ck as [ka kt]. unfold tssm_prove_t, tssm_prove.
    rewrite snd_tbind. apply rbind_cong; [apply erase_prove|intros [p aux]].
    destruct (ga_ck_base aux) as [fa fb]. cbv zeta.
    rewrite snd_tbind. apply rbind_cong; [reflexivity|intros ti].
    rewrite snd_tbind. apply rbind_cong; [reflexivity|intros t0].
    rewrite snd_tbind. apply rbind_cong; [apply erase_rand|intros c].
    rewrite snd_tbind. apply rbind_cong; [apply erase_opening|reflexivity].
  Qed.
End EraseTipa.

Section EraseApps.
  Context {R : Type} (P : pairing) (E : penv) (D : bytes -> bytes) (fuel : nat).
  Variables (rs : sampler R (pK P)) (r1 : sampler R (pG1 P)) (r2 : sampler R (pG2 P)).

  Lemma erase_kzg_commit powers p : snd (kzg_commit_t P powers p) = kzg_commit powers p.
  Proof. unfold kzg_commit_t, kzg_commit. erase. Qed.
  Lemma erase_kzg_open powers p z : snd (kzg_open_t P powers p z) = kzg_open powers p z.
  Proof. unfold kzg_open_t, kzg_open. erase. Qed.
  Lemma erase_bpc_setup rng x y : snd (bpc_setup_t P rs rng x y) = bpc_setup P rs rng x y.
  Proof.
    unfold bpc_setup_t, bpc_setup. destruct (rs rng) as [al q1], (rs q1) as [be q2].
    rewrite snd_tbind. apply rbind_cong; [apply erase_generators|intros ga].
    rewrite snd_tbind. apply rbind_cong; [apply erase_generators|reflexivity].
  Qed.
  Lemma erase_bpc_commit s p : snd (bpc_commit_t P E r2 s p) = bpc_commit P E r2 s p.
  Proof.
    destruct s as [ips ks]. unfold bpc_commit_t, bpc_commit. cbv zeta.
    rewrite snd_tbind. apply rbind_cong; [reflexivity|intros _].
    rewrite snd_tbind. apply rbind_cong; [apply erase_map, erase_kzg_commit|intros cs]. rewrite snd_run_emit.
    rewrite snd_tbind. apply rbind_cong; reflexivity.
  Qed.
  Lemma erase_bpc_open s p coms pt : snd (bpc_open_t P E D fuel r2 s p coms pt) = bpc_open P E D fuel r2 s p coms pt.
  Proof.
    destruct s as [ips ks], pt as [x y]. unfold bpc_open_t, bpc_open. cbv zeta.
    rewrite snd_tbind. apply rbind_cong; [reflexivity|intros _]. rewrite !snd_run_emit.
    rewrite snd_tbind. apply rbind_cong; [reflexivity|intros yc]. rewrite !snd_run_emit.
    rewrite snd_tbind. apply rbind_cong; [reflexivity|intros ye].
    rewrite snd_tbind. apply rbind_cong; [apply erase_tssm_prove|intros ipp].
    rewrite snd_tbind. apply rbind_cong; [apply erase_kzg_open|reflexivity].
  Qed.
  Lemma erase_row k1 c : snd (t_row_commit_t P r1 k1 c) = t_row_commit P r1 k1 c.
  Proof. unfold t_row_commit_t, t_row_commit. erase. Qed.
  Lemma erase_tbpc_commit ck p : snd (tbpc_commit_t P E r1 r2 ck p) = tbpc_commit P E r1 r2 ck p.
  Proof.
    destruct ck as [k1 k2]. unfold tbpc_commit_t, tbpc_commit.
    rewrite snd_tbind. apply rbind_cong; [reflexivity|intros _].
    rewrite snd_tbind. apply rbind_cong; [apply erase_map, erase_row|intros cs]. rewrite snd_run_emit.
    rewrite snd_tbind. apply rbind_cong; reflexivity.
  Qed.
  Lemma erase_tbpc_open ck p coms pt : snd (tbpc_open_t P E D fuel r1 r2 ck p coms pt) = tbpc_open P E D fuel r1 r2 ck p coms pt.
  Proof.
    destruct ck as [k1 k2], pt as [x y]. unfold tbpc_open_t, tbpc_open. cbv zeta.
    rewrite snd_tbind. apply rbind_cong; [reflexivity|intros _].
    rewrite snd_tbind. apply rbind_cong; [reflexivity|intros px]. rewrite !snd_run_emit.
    rewrite snd_tbind. apply rbind_cong; [reflexivity|intros yc]. rewrite !snd_run_emit.
    rewrite snd_tbind. apply rbind_cong; [reflexivity|intros ye].
    rewrite snd_tbind. apply rbind_cong; [apply erase_gssm_prove|intros s2].
    rewrite snd_tbind. apply rbind_cong; [reflexivity|intros py]. rewrite !snd_run_emit.
    rewrite snd_tbind. apply rbind_cong; [apply (erase_gssm_prove (MA := fmod (pK P)))|reflexivity].
  Qed.
  Lemma erase_aggregate s proofs : snd (g16_aggregate_t P E D fuel r1 r2 s proofs) = g16_aggregate P E D fuel r1 r2 s proofs.
  Proof.
    unfold g16_aggregate_t, g16_aggregate. cbv zeta. destruct (get_commitment_keys s) as [k1 k2].
    rewrite snd_run_emit, snd_tbind. apply rbind_cong; [reflexivity|intros ca].
    rewrite snd_run_emit, snd_tbind. apply rbind_cong; [reflexivity|intros cb].
    rewrite snd_run_emit, snd_tbind. apply rbind_cong; [reflexivity|intros cc].
    rewrite snd_tbind. apply rbind_cong; [apply erase_rand|intros r].
    rewrite snd_tbind. apply rbind_cong; [reflexivity|intros rv]. rewrite !snd_run_emit.
    rewrite snd_tbind. apply rbind_cong; [reflexivity|intros z]. rewrite snd_run_emit.
    rewrite snd_tbind. apply rbind_cong; [reflexivity|intros ag].
    rewrite snd_tbind. apply rbind_cong; [apply erase_map; intros x; erase|intros kr]. rewrite snd_run_emit.
    rewrite snd_tbind. apply rbind_cong; [reflexivity|intros ca'].
    rewrite snd_tbind. apply rbind_cong; [reflexivity|intros _].
    rewrite snd_tbind. apply rbind_cong; [apply erase_tipa_prove|intros pab].
    rewrite snd_tbind. apply rbind_cong; [apply erase_tssm_prove|reflexivity].
  Qed.
End EraseApps.

Theorem C93_same_programs R (P : pairing) (E : penv) D fuel (rs : sampler R (pK P)) (r1 : sampler R (pG1 P)) (r2 : sampler R (pG2 P)) :
  (forall (MT KT : module (pK P)) (OT : carrier (pK P)) (IPC : dhc R MT KT OT) rng size,
     snd (tipa_setup_t IPC rs rng size) = tipa_setup IPC rs rng size) /\
  (forall (MA MB MT KT : module (pK P)) (OA OB OT : carrier (pK P))
     (LMC : dhc R MA (pG2 P) OA) (RMC : dhc R MB (pG1 P) OB) (IPC : dhc R MT KT OT) ip s values ck r,
     snd (tipa_prove_with_srs_shift_t LMC RMC IPC ip D fuel s values ck r) =
     tipa_prove_with_srs_shift LMC RMC IPC ip D fuel s values ck r) /\
  (forall (MA MT KA KT : module (pK P)) (OA OT : carrier (pK P)) (LMC : dhc R MA KA OA) (IPC : dhc R MT KT OT) ip values ck,
     snd (gssm_prove_t IPC ip D fuel LMC values ck) = gssm_prove LMC IPC ip D fuel values ck) /\
  (forall (MA MT KT : module (pK P)) (OA OT : carrier (pK P)) (LMC : dhc R MA (pG2 P) OA) (IPC : dhc R MT KT OT) ip s values ck,
     snd (tssm_prove_t IPC ip D fuel LMC s values ck) = tssm_prove LMC IPC ip D fuel s values ck) /\
  (forall powers p z, snd (kzg_commit_t P powers p) = kzg_commit powers p /\ snd (kzg_open_t P powers p z) = kzg_open powers p z) /\
  (forall rng x y, snd (bpc_setup_t P rs rng x y) = bpc_setup P rs rng x y) /\
  (forall s p coms pt, snd (bpc_commit_t P E r2 s p) = bpc_commit P E r2 s p /\
     snd (bpc_open_t P E D fuel r2 s p coms pt) = bpc_open P E D fuel r2 s p coms pt) /\
  (forall ck p coms pt, snd (tbpc_commit_t P E r1 r2 ck p) = tbpc_commit P E r1 r2 ck p /\
     snd (tbpc_open_t P E D fuel r1 r2 ck p coms pt) = tbpc_open P E D fuel r1 r2 ck p coms pt) /\
  (forall s proofs, snd (g16_aggregate_t P E D fuel r1 r2 s proofs) = g16_aggregate P E D fuel r1 r2 s proofs).
Proof.
  repeat match goal with |- _ /\ _ => split end; intros.
  - apply erase_tipa_setup.
  - apply erase_tipa_prove.
  - apply erase_gssm_prove.
  - apply erase_tssm_prove.
  - split; [apply erase_kzg_commit|apply erase_kzg_open].
  - apply erase_bpc_setup.
  - split; [apply erase_bpc_commit|apply erase_bpc_open].
  - split; [apply erase_tbpc_commit|apply erase_tbpc_open].
  - apply erase_aggregate.
Qed.
Print Assumptions C93_same_programs.

(** ** Lower bounds for runs that end well and upper bounds for all runs, together *)
Section Between.
  Variable price : op -> nat.
  Definition btw {A} (l h : nat) (x : traced A) : Prop := hi price h x /\ lo price (fun _ => True) l x.

  Lemma btw_le {A} l h l' h' (x : traced A) : btw l h x -> l' <= l -> h <= h' -> btw l' h' x.
  Proof. intros [H1 H2] Hl Hh. split; [now apply (hi_le _ h)|now apply (lo_le _ _ l)]. Qed.
  Lemma btw_lift {A} (x : res A) : btw 0 0 (lift x).
  Proof. split; [apply hi_lift|apply lo_zero]. Qed.
  Lemma btw_bind {A B} l h l' h' (x : traced A) (f : A -> traced B) :
    btw l h x -> (forall a, snd x = Ok a -> btw l' h' (f a)) -> btw (l + l') (h + h') (tbind x f).
  Proof.
    intros [H1 H2] H. split; [apply hi_bind; auto; intros a Ha; apply (H a Ha)|].
    apply lo_seq; auto. intros a Ha. apply (H a Ha).
  Qed.
  Lemma btw_do {A B} l h (x : res A) (f : A -> traced B) : (forall a, x = Ok a -> btw l h (f a)) -> btw l h (tbind (lift x) f).
  Proof. intros H. split; [apply hi_do|apply lo_do]; intros a Ha; apply (H a Ha). Qed.
  Lemma btw_run {B} t l h (f : unit -> traced B) : btw l h (f tt) -> btw (bill price t + l) (bill price t + h) (tbind (emit t) f).
  Proof. intros [H1 H2]. split; [now apply hi_run|now apply lo_run]. Qed.
  Lemma btw_rand {K : field} D fuel n payload : btw (price OHash) (fuel * price OHash) (rand_challenge_t (K := K) D fuel n payload).
  Proof. split; [apply rand_hi|apply rand_lo]. Qed.
  Lemma btw_map {A B} (f : A -> traced B) l h xs : (forall x, In x xs -> btw l h (f x)) ->
    btw (length xs * l) (length xs * h) (tmapM f xs).
  Proof.
    induction xs as [|x xs IH]; intros H; cbn [tmapM length]; [apply btw_lift|].
    eapply btw_le; [apply btw_bind; [apply H; now left|]; intros y _; apply btw_bind; [apply IH; intros z Hz; apply H; now right|]; intros ys _; apply btw_lift| |]; lia.
  Qed.

  Lemma btw_generators {K} {G : module K} num (g : G) s :
    btw (num * price OPush + num * price OScale) (num * price OPush + num * price OScale) (structured_generators_scalar_power_t num g s).
  Proof.
    unfold structured_generators_scalar_power_t. apply btw_do. intros _ _.
    eapply btw_le; [apply btw_run, btw_run, btw_lift| |]; rewrite !bill_repeat; lia.
  Qed.

  Lemma btw_push {K : field} (x : K) js v : btw (length js * price OPush) (length js * price OPush) (push_scaled_t x js v).
  Proof. split; [apply push_hi|apply push_lo]. Qed.
  Lemma btw_coefficients {K : field} t : forall i (p : K) c,
    btw ((2 ^ (i + length t) - 2 ^ i) * price OPush) ((2 ^ (i + length t) - 2 ^ i) * price OPush) (coefficients_loop_t i t p c).
  Proof.
    induction t; intros; cbn [coefficients_loop_t length].
    - eapply btw_le; [apply btw_lift| |apply Nat.le_0_l]. rewrite Nat.add_0_r, Nat.sub_diag. lia.
    - assert (Hp : 2 ^ (i + S (length t)) - 2 ^ i = 2 ^ i + (2 ^ (S i + length t) - 2 ^ S i)).
      { replace (i + S (length t)) with (S i + length t) by lia.
        pose proof (Nat.pow_le_mono_r 2 (S i) (S i + length t) ltac:(lia) ltac:(lia)). change (2 ^ S i) with (2 * 2 ^ i) in *. lia. }
      rewrite Hp. eapply btw_le; [apply btw_bind; [apply btw_push|]; intros v _; apply IHt| |]; rewrite seq_length; lia.
  Qed.
  (** the opening of one folded key *)
  Definition opening_bill (k len : nat) : nat := (2 ^ k - 1) * price OPush + price (OMsm len).
  Lemma btw_opening {K} {G : module K} k (srs : list G) t r c : length t = k ->
    btw (opening_bill k (length srs)) (opening_bill k (length srs)) (prove_ck_kzg_opening_t srs t r c).
  Proof.
    intros <-. unfold prove_ck_kzg_opening_t, poly_coefficients_from_transcript_t, opening_bill.
    eapply btw_le.
    - apply btw_bind; [apply btw_bind; [apply btw_coefficients|]; intros v _; apply btw_lift|]. intros l _. cbv zeta.
      apply btw_do. intros _ _. apply btw_do. intros q _. apply btw_run, btw_lift.
    - cbn [bill Nat.add Nat.pow]. lia.
    - cbn [bill Nat.add Nat.pow]. lia.
  Qed.
End Between.

Lemma transcript_length {R} {K : field} {MA MB MT KA KB KT : module K} {OA OB OT : carrier K}
    (LMC : dhc R MA KA OA) (RMC : dhc R MB KB OB) (IPC : dhc R MT KT OT) ip D fuel k a b ka kb kt proof aux :
  length a = 2 ^ k -> length b = 2 ^ k -> length ka = 2 ^ k -> length kb = 2 ^ k ->
  gipa_prove_with_aux LMC RMC IPC ip D fuel (a, b) (ka, kb, kt) = Ok (proof, aux) -> length (ga_transcript aux) = k.
Proof.
  intros Ha Hb Hka Hkb H.
  destruct (prove_with_aux_inv D fuel LMC RMC IPC ip k a b ka kb kt proof aux Ha Hb Hka Hkb H) as [cs [Hch [Hlen [-> _]]]].
  apply chain_length in Hch. rewrite rev_length in *. congruence.
Qed.
Lemma invert_all_len {K : field} (t : list K) ti : invert_all t = Ok ti -> length ti = length t.
Proof. intros H. apply invert_all_inv in H as [_ ->]. apply map_length. Qed.

Section Provers.
  Context {R : Type} {P : pairing}.
  Notation K := (pK P).
  Context {MA MB MT KA KT : module (pK P)} {OA OB OT : carrier (pK P)}.
  Variables (D : bytes -> bytes) (fuel : nat) (price : op -> nat).

  Definition tipa_bill (tries k h g : nat) : nat :=
    halves k (prove_round_bill price tries) + tries * price OHash + opening_bill price k h + opening_bill price k g.
  Lemma tipa_btw (LMC : dhc R MA (pG2 P) OA) (RMC : dhc R MB (pG1 P) OB) (IPC : dhc R MT KT OT) ip k s a b ka kb kt r :
    length a = 2 ^ k -> length b = 2 ^ k -> length ka = 2 ^ k -> length kb = 2 ^ k ->
    btw price (tipa_bill 1 k (length (h_beta_powers s)) (length (g_alpha_powers s)))
      (tipa_bill fuel k (length (h_beta_powers s)) (length (g_alpha_powers s)))
      (tipa_prove_with_srs_shift_t LMC RMC IPC ip D fuel s (a, b) (ka, kb, kt) r).
  Proof.
    intros Ha Hb Hka Hkb. unfold tipa_prove_with_srs_shift_t, tipa_bill.
    eapply btw_le.
    - apply btw_bind; [exact (prove_cost LMC RMC IPC ip D fuel price k a b ka kb [kt] Ha Hb Hka Hkb)|].
      intros [pr aux] H1. rewrite erase_prove in H1. apply transcript_length with (k := k) in H1; auto.
      destruct (ga_ck_base aux) as [fa fb]. cbv zeta. apply btw_do. intros ti H2. apply invert_all_len in H2.
      apply btw_do. intros ri _. apply btw_do. intros t0 _. apply btw_bind; [apply btw_rand|]. intros c _.
      apply btw_bind; [apply (btw_opening price k); congruence|]. intros o1 _.
      apply btw_bind; [apply (btw_opening price k); exact H1|]. intros o2 _. apply btw_lift.
    - lia.
    - lia.
  Qed.

  Definition tssm_bill (tries k h : nat) : nat :=
    halves k (prove_round_bill price tries) + tries * price OHash + opening_bill price k h.
  Lemma tssm_btw (LMC : dhc R MA (pG2 P) OA) (IPC : dhc R MT KT OT) ip k s a b ka kt :
    length a = 2 ^ k -> length b = 2 ^ k -> length ka = 2 ^ k ->
    btw price (tssm_bill 1 k (length (h_beta_powers s))) (tssm_bill fuel k (length (h_beta_powers s)))
      (tssm_prove_t IPC ip D fuel LMC s (a, b) (ka, kt)).
  Proof.
    intros Ha Hb Hka. unfold tssm_prove_t, tssm_bill. cbn [snd].
    assert (Hkb : length (repeat (tt : unitmod K) (length b)) = 2 ^ k) by now rewrite repeat_length.
    eapply btw_le.
    - apply btw_bind; [exact (prove_cost LMC (ssm_placeholder K) IPC ip D fuel price k a b ka _ [kt] Ha Hb Hka Hkb)|].
      intros [pr aux] H1. rewrite erase_prove in H1. apply transcript_length with (k := k) in H1; auto.
      destruct (ga_ck_base aux) as [fa fb]. cbv zeta. apply btw_do. intros ti H2. apply invert_all_len in H2.
      apply btw_do. intros t0 _. apply btw_bind; [apply btw_rand|]. intros c _.
      apply btw_bind; [apply (btw_opening price k); congruence|]. intros o1 _. apply btw_lift.
    - lia.
    - lia.
  Qed.

  Lemma gssm_btw (LMC : dhc R MA KA OA) (IPC : dhc R MT KT OT) ip k a b ka kt :
    length a = 2 ^ k -> length b = 2 ^ k -> length ka = 2 ^ k ->
    btw price (halves k (prove_round_bill price 1)) (halves k (prove_round_bill price fuel))
      (gssm_prove_t IPC ip D fuel LMC (a, b) (ka, kt)).
  Proof.
    intros Ha Hb Hka. unfold gssm_prove_t. cbn [snd].
    assert (Hkb : length (repeat (tt : unitmod K) (length b)) = 2 ^ k) by now rewrite repeat_length.
    eapply btw_le.
    - apply btw_bind; [exact (prove_cost LMC (ssm_placeholder K) IPC ip D fuel price k a b ka _ [kt] Ha Hb Hka Hkb)|].
      intros [pr aux] _. apply btw_lift.
    - lia.
    - lia.
  Qed.
End Provers.

Section Apps.
  Context {R : Type} (P : pairing) (E : penv) (D : bytes -> bytes) (fuel : nat).
  Variables (rs : sampler R (pK P)) (r1 : sampler R (pG1 P)) (r2 : sampler R (pG2 P)).
  Variable price : op -> nat.

  Lemma kzg_commit_btw powers p : btw price (price (OMsm (length powers))) (price (OMsm (length powers))) (kzg_commit_t P powers p).
  Proof. unfold kzg_commit_t. apply btw_do. intros d _. apply btw_do. intros _ _. eapply btw_le; [apply btw_run, btw_lift| |]; cbn; lia. Qed.
  Lemma kzg_open_btw powers p z : btw price (price (OMsm (length powers))) (price (OMsm (length powers))) (kzg_open_t P powers p z).
  Proof.
    unfold kzg_open_t. apply btw_do. intros d _. apply btw_do. intros _ _. apply btw_do. intros q _.
    eapply btw_le; [apply btw_run, btw_lift| |]; cbn; lia.
  Qed.

  Lemma tipa_setup_btw {MT KT : module (pK P)} {OT : carrier (pK P)} (IPC : dhc R MT KT OT) rng n : 
    let m := 2 * (2 * n - 1) * price OPush + (2 * (2 * n - 1) + 2) * price OScale in
    btw price m m (tipa_setup_t IPC rs rng n).
  Proof.
    intros m. unfold tipa_setup_t. destruct (rs rng) as [al q1], (rs q1) as [be q2]. apply btw_do. intros _ _.
    eapply btw_le.
    - apply btw_bind; [apply btw_generators|]. intros ga _. apply btw_bind; [apply btw_generators|]. intros hb _.
      apply btw_run, btw_do. intros [kt q3] _. apply btw_do. intros kt' _. apply btw_lift.
    - cbn [bill]. unfold m. generalize (2 * n - 1). intros. lia.
    - cbn [bill]. unfold m. generalize (2 * n - 1). intros. lia.
  Qed.

  Lemma bpc_setup_btw rng x y :
    let m := (y + 1 + (2 * x + 1)) * price OPush + (y + 1 + (2 * x + 1) + 2) * price OScale in
    btw price m m (bpc_setup_t P rs rng x y).
  Proof.
    intros m. unfold bpc_setup_t. destruct (rs rng) as [al q1], (rs q1) as [be q2].
    eapply btw_le.
    - apply btw_bind; [apply btw_generators|]. intros ga _. apply btw_bind; [apply btw_generators|]. intros hb _.
      apply btw_run, btw_lift.
    - cbn [bill]. unfold m. lia.
    - cbn [bill]. unfold m. lia.
  Qed.

  Lemma tmapM_length {A B} (f : A -> traced B) l y : snd (tmapM f l) = Ok y -> length y = length l.
  Proof.
    rewrite (erase_map f (fun x => snd (f x))) by auto. apply rmapM_ok_length.
  Qed.

  Lemma bpc_commit_btw s p :
    let n := length (fst (get_commitment_keys (fst s))) in
    let m := n * price (OMsm (length (snd s))) + price (OCommit n) in
    btw price m m (bpc_commit_t P E r2 s p).
  Proof.
    destruct s as [ips ks]. intros n m. cbn [fst snd] in n, m. unfold bpc_commit_t. cbv zeta. fold n. apply btw_do. intros _ _.
    assert (Hl : length (chain_cycle_take p [] n) = n) by (rewrite chain_take_resize; apply resize_length).
    eapply btw_le.
    - apply btw_bind; [apply btw_map; intros x _; apply kzg_commit_btw|]. intros cs Hcs. apply tmapM_length in Hcs. rewrite Hl in Hcs. rewrite Hcs.
      apply btw_run, btw_do. intros c _. apply btw_lift.
    - rewrite Hl. cbn [bill]. unfold m. lia.
    - rewrite Hl. cbn [bill]. unfold m. lia.
  Qed.

  Lemma row_btw k1 c : btw price (price (OCommit (length k1))) (price (OCommit (length k1))) (t_row_commit_t P r1 k1 c).
  Proof. unfold t_row_commit_t. apply btw_do. intros _ _. eapply btw_le; [apply btw_run, btw_lift| |]; cbn; lia. Qed.
  Lemma tbpc_commit_btw k1 k2 p :
    let m := length k2 * price (OCommit (length k1)) + price (OCommit (length k2)) in
    btw price m m (tbpc_commit_t P E r1 r2 (k1, k2) p).
  Proof.
    intros m. unfold tbpc_commit_t. apply btw_do. intros _ _.
    assert (Hl : length (chain_cycle_take p [] (length k2)) = length k2) by (rewrite chain_take_resize; apply resize_length).
    eapply btw_le.
    - apply btw_bind; [apply btw_map; intros x _; apply row_btw|]. intros cs Hcs. apply tmapM_length in Hcs. rewrite Hl in Hcs. rewrite Hcs.
      apply btw_run, btw_do. intros c _. apply btw_lift.
    - rewrite Hl. cbn [bill]. unfold m. lia.
    - rewrite Hl. cbn [bill]. unfold m. lia.
  Qed.

  Lemma push_powers_len {K : field} n : forall p s : K, length (push_powers n p s) = n.
  Proof. induction n; intros; cbn; auto. Qed.
  Definition bpc_open_bill (tries k ny h : nat) : nat :=
    2 ^ k * price OPush + ny * price (OProduct (2 ^ k)) + 2 * price (OMsm ny) + tssm_bill price tries k h.
  Lemma bpc_open_btw k s p coms pt :
    length (fst (get_commitment_keys (fst s))) = 2 ^ k -> length coms = 2 ^ k ->
    let h := length (h_beta_powers (fst s)) in let ny := length (snd s) in
    btw price (bpc_open_bill 1 k ny h) (bpc_open_bill fuel k ny h) (bpc_open_t P E D fuel r2 s p coms pt).
  Proof.
    destruct s as [ips ks], pt as [x y]. cbn [fst snd]. intros Hn Hc. unfold bpc_open_t, bpc_open_bill. cbv zeta. apply btw_do. intros _ _.
    rewrite Hn. eapply btw_le.
    - apply btw_run, btw_run, btw_do. intros yc _. apply btw_run, btw_do. intros ye _.
      apply btw_bind; [apply (tssm_btw D fuel price (afgho_g1 P E r2) (identity (R := R) (pG1 P)) (multiexp_ip (pG1 P)) k); auto; apply push_powers_len|].
      intros ipp _. apply btw_bind; [apply kzg_open_btw|]. intros kp _. apply btw_lift.
    - rewrite !bill_repeat. cbn [bill]. lia.
    - rewrite !bill_repeat. cbn [bill]. lia.
  Qed.

  Definition tbpc_open_bill (tries j k : nat) : nat :=
    (2 ^ j + 2 ^ k) * price OPush + 2 ^ j * price (OProduct (2 ^ k)) + price (OCommit (2 ^ j))
    + halves k (prove_round_bill price tries) + halves j (prove_round_bill price tries).
  Lemma tbpc_open_btw j k k1 k2 p coms pt :
    length k1 = 2 ^ j -> length k2 = 2 ^ k -> length coms = 2 ^ k ->
    btw price (tbpc_open_bill 1 j k) (tbpc_open_bill fuel j k) (tbpc_open_t P E D fuel r1 r2 (k1, k2) p coms pt).
  Proof.
    destruct pt as [x y]. intros H1 H2 Hc. unfold tbpc_open_t, tbpc_open_bill. apply btw_do. intros _ _.
    rewrite !H1, !H2. apply btw_do. intros px Hpx.
    assert (Hx : length px = 2 ^ k) by (rewrite structured_scalar_power_spec in Hpx; injection Hpx as <-; rewrite map_length, seq_length; pose proof (pow2_pos k); lia).
    cbv zeta. rewrite Hx. eapply btw_le.
    - apply btw_run, btw_run, btw_do. intros yc Hyc.
      assert (Hy : length yc = 2 ^ j) by (apply rmapM_ok_length in Hyc; rewrite seq_length in Hyc; auto). rewrite Hy.
      apply btw_run, btw_do. intros ye _.
      apply btw_bind; [apply (gssm_btw D fuel price (afgho_g1 P E r2) (identity (R := R) (pG1 P)) (multiexp_ip (pG1 P)) k); auto|].
      intros s2 _. apply btw_do. intros py Hpy.
      assert (Hpy' : length py = 2 ^ j) by (rewrite structured_scalar_power_spec in Hpy; injection Hpy as <-; rewrite map_length, seq_length; pose proof (pow2_pos j); lia).
      rewrite Hpy'. apply btw_run.
      apply btw_bind; [apply (gssm_btw (MA := fmod (pK P)) D fuel price (pedersen (pG1 P) r1) (identity (R := R) (fmod (pK P))) (@scalar_ip (pK P) E) j); auto|].
      intros s1 _. apply btw_lift.
    - rewrite !bill_repeat. cbn [bill]. lia.
    - rewrite !bill_repeat. cbn [bill]. lia.
  Qed.

  Definition aggregate_bill (tries k h g : nat) : nat :=
    5 * price (OProduct (2 ^ k)) + price (OMsm (2 ^ k)) + tries * price OHash + 2 ^ k * price OPush + 2 * 2 ^ k * price OScale
    + tipa_bill price tries k h g + tssm_bill price tries k h.
  Lemma pairing_ip_len a b z : pairing_ip P E a b = Ok z -> length a = length b.
  Proof. intros H. destruct (Nat.eq_dec (length a) (length b)) as [e|n]; auto. rewrite pairing_ip_err in H by auto. discriminate. Qed.
  Lemma aggregate_btw k s proofs : length proofs = 2 ^ k ->
    let h := length (h_beta_powers s) in let g := length (g_alpha_powers s) in
    btw price (aggregate_bill 1 k h g) (aggregate_bill fuel k h g) (g16_aggregate_t P E D fuel r1 r2 s proofs).
  Proof.
    intros Hn h g. unfold g16_aggregate_t, aggregate_bill. destruct (get_commitment_keys s) as [k1 k2]. rewrite !map_length, !Hn.
    eapply btw_le.
    - apply btw_run, btw_do. intros ca Hca. apply pairing_ip_len in Hca. rewrite map_length in Hca.
      apply btw_run, btw_do. intros cb Hcb. apply pairing_ip_len in Hcb. rewrite map_length in Hcb.
      apply btw_run, btw_do. intros cc _. apply btw_bind; [apply btw_rand|]. intros r _. apply btw_do. intros rv Hrv.
      assert (Hr : length rv = 2 ^ k) by (rewrite structured_scalar_power_spec in Hrv; injection Hrv as <-; rewrite map_length, seq_length; pose proof (pow2_pos k); lia).
      cbv zeta. rewrite zipw_length, map_length, Hn, Hr, Nat.min_id. apply btw_run, btw_run, btw_run, btw_do. intros z _.
      apply btw_run, btw_do. intros ag _.
      assert (Hl : length (combine k1 rv) = 2 ^ k) by (rewrite combine_length; lia).
      apply btw_bind.
      { apply (btw_le price (length (combine k1 rv) * price OScale) (length (combine k1 rv) * price OScale) (2 ^ k * price OScale) (2 ^ k * price OScale));
          [|rewrite Hl; lia|rewrite Hl; lia].
        apply (btw_map price _ (price OScale) (price OScale)). intros x _. apply btw_do. intros ri _.
        eapply btw_le; [apply btw_run, btw_lift| |]; cbn; lia. }
      intros kr Hkr. apply tmapM_length in Hkr. rewrite Hl in Hkr. apply btw_run, btw_do. intros ca' _. apply btw_do. intros _ _.
      apply btw_bind.
      { apply (tipa_btw D fuel price (afgho_g1 P E r2) (afgho_g2 P E r1) (identity (R := R) (pGT P)) (pairing_ip P E) k); auto; try congruence.
        - rewrite zipw_length, map_length, Hn, Hr. apply Nat.min_id.
        - rewrite map_length. exact Hn. }
      intros pab _. apply btw_bind.
      { apply (tssm_btw D fuel price (afgho_g1 P E r2) (identity (R := R) (pG1 P)) (multiexp_ip (pG1 P)) k); auto; try congruence.
        rewrite map_length. exact Hn. }
      intros pc _. apply btw_lift.
    - rewrite !bill_repeat. cbn [bill]. fold h g. lia.
    - rewrite !bill_repeat. cbn [bill]. fold h g. lia.
  Qed.
End Apps.

(** ** The theorems.  [tries]: digest calls per challenge; [rounds_cost]: one round for every halving of 2^k values *)
Definition rounds_cost (price : op -> nat) (tries k : nat) : nat :=
  list_sum (map (fun j => tries * price OHash + 4 * price (OCommit (2 ^ j)) + 2 * price (OProduct (2 ^ j)) + 2 * price (OCommitT 1)
                          + 4 * 2 ^ j * price OScale) (seq 0 k)).
(** at most the cost with [fuel] tries, whatever happens; at least the cost with one try, when there is a result *)
Definition costs {A} (fuel : nat) (out : traced A) (cost : (op -> nat) -> nat -> nat) : Prop :=
  forall price, bill price (fst out) <= cost price fuel /\ (forall x, snd out = Ok x -> cost price 1 <= bill price (fst out)).

Lemma costs_exact {A} fuel (out : traced A) cost price x : costs fuel out cost ->
  snd out = Ok x -> cost price 1 = cost price fuel -> bill price (fst out) = cost price 1.
Proof. intros H Hx He. destruct (H price) as [H1 H2]. specialize (H2 x Hx). lia. Qed.
Lemma btw_costs {A} fuel (out : traced A) cost : (forall price, btw price (cost price 1) (cost price fuel) out) -> costs fuel out cost.
Proof. intros H price. destruct (H price) as [H1 H2]. split; [exact H1|]. intros x Hx. exact (H2 x Hx I). Qed.
Lemma btw_costs_le {A} fuel (out : traced A) cost cost' : (forall price, btw price (cost' price 1) (cost' price fuel) out) ->
  (forall price t, cost' price t = cost price t) -> costs fuel out cost.
Proof. intros H He. apply btw_costs. intros price. rewrite <- !He. apply H. Qed.

Lemma rounds_linear price tries k m : (forall h, prove_round_bill price tries h = m * h) -> rounds_cost price tries k = m * (2 ^ k - 1).
Proof.
  intros Hp. change (halves k (prove_round_bill price tries) = m * (2 ^ k - 1)).
  induction k as [|j IH]; [cbn; lia|]. rewrite halves_S, IH, Hp. cbn [Nat.pow]. pose proof (pow2_pos j). nia.
Qed.

Lemma opening_ok_length {K : field} {G : module K} (srs : list G) t (r c : K) o : Forall (fun x => x <> f0) t -> r <> f0 ->
  prove_ck_kzg_opening srs t r c = Ok o -> length srs = 2 * 2 ^ length t - 1.
Proof.
  intros Ht Hr H. destruct (opening_outcome srs t r c Ht Hr) as [_ HP].
  destruct (Nat.eq_dec (length srs) (2 * 2 ^ length t - 1)) as [e|n]; auto. rewrite HP in H by auto. discriminate.
Qed.
Lemma runwrap_inv {K : field} (x y : K) : runwrap (finverse x) = Ok y -> x <> f0 /\ y <> f0.
Proof.
  destruct (f_eq_dec K x f0) as [->|Hx]; [rewrite finverse_0; discriminate|]. rewrite finverse_neq by auto. intros [= <-].
  split; [auto|now apply finv_neq0].
Qed.
Lemma Forall_finv {K : field} (t : list K) : Forall (fun x => x <> f0) t -> Forall (fun x => x <> f0) (map finv t).
Proof. induction 1; cbn; constructor; auto. now apply finv_neq0. Qed.

Lemma tipa_ok_lengths {R} {P : pairing} {MA MB MT KT : module (pK P)} {OA OB OT : carrier (pK P)}
    (LMC : dhc R MA (pG2 P) OA) (RMC : dhc R MB (pG1 P) OB) (IPC : dhc R MT KT OT) ip D fuel k s a b ka kb kt r p :
  length a = 2 ^ k -> length b = 2 ^ k -> length ka = 2 ^ k -> length kb = 2 ^ k ->
  tipa_prove_with_srs_shift LMC RMC IPC ip D fuel s (a, b) (ka, kb, kt) r = Ok p ->
  length (h_beta_powers s) = 2 * 2 ^ k - 1 /\ length (g_alpha_powers s) = 2 * 2 ^ k - 1.
Proof.
  intros Ha Hb Hka Hkb H. unfold tipa_prove_with_srs_shift in H. apply rbind_ok in H as [[pr aux] [H1 H]].
  apply transcript_length with (k := k) in H1; auto. destruct (ga_ck_base aux) as [fa fb].
  apply rbind_ok in H as [ti [H2 H]]. apply invert_all_inv in H2 as [H2 ->]. apply rbind_ok in H as [ri [H3 H]]. apply runwrap_inv in H3 as [_ H3].
  apply rbind_ok in H as [t0 [_ H]]. apply rbind_ok in H as [c [_ H]]. apply rbind_ok in H as [o1 [H4 H]]. apply rbind_ok in H as [o2 [H5 _]].
  apply opening_ok_length in H4; auto using Forall_finv. apply opening_ok_length in H5; auto using (f1_neq_f0 (pK P)).
  rewrite map_length in H4. now rewrite H1 in *.
Qed.
Lemma tssm_ok_lengths {R} {P : pairing} {MA MT KT : module (pK P)} {OA OT : carrier (pK P)}
    (LMC : dhc R MA (pG2 P) OA) (IPC : dhc R MT KT OT) ip D fuel k s a b ka kt p :
  length a = 2 ^ k -> length b = 2 ^ k -> length ka = 2 ^ k ->
  tssm_prove LMC IPC ip D fuel s (a, b) (ka, kt) = Ok p -> length (h_beta_powers s) = 2 * 2 ^ k - 1.
Proof.
  intros Ha Hb Hka H. unfold tssm_prove in H. apply rbind_ok in H as [[pr aux] [H1 H]].
  apply transcript_length with (k := k) in H1; auto; [|cbn [snd]; now rewrite repeat_length]. destruct (ga_ck_base aux) as [fa fb].
  apply rbind_ok in H as [ti [H2 H]]. apply invert_all_inv in H2 as [H2 ->].
  apply rbind_ok in H as [t0 [_ H]]. apply rbind_ok in H as [c [_ H]]. apply rbind_ok in H as [o1 [H4 _]].
  apply opening_ok_length in H4; auto using Forall_finv, (f1_neq_f0 (pK P)).
  rewrite map_length in H4. now rewrite H1 in *.
Qed.

Ltac count1 HC x Ho m :=
  rewrite ?number_bill; unfold committed, multiplied, exponentiated;
  rewrite (costs_exact _ _ _ _ x HC Ho); cbn beta;
  try rewrite !(rounds_linear _ _ _ m) by (intros; unfold prove_round_bill; cbn [is_pairing is_scale is_push is_msm]; lia);
  cbn [is_pairing is_scale is_push is_msm]; rewrite ?Nat.mul_0_r, ?Nat.mul_1_r; try lia.

(** TIPA: n = 2^k values *)
Theorem C93_tipa_prove R (P : pairing) (MA MB MT KT : module (pK P)) (OA OB OT : carrier (pK P))
    (LMC : dhc R MA (pG2 P) OA) (RMC : dhc R MB (pG1 P) OB) (IPC : dhc R MT KT OT) ip D fuel k s a b ka kb kt r :
  length a = 2 ^ k -> length b = 2 ^ k -> length ka = 2 ^ k -> length kb = 2 ^ k ->
  let n := 2 ^ k in
  let out := tipa_prove_with_srs_shift_t LMC RMC IPC ip D fuel s (a, b) (ka, kb, kt) r in
  costs fuel out (fun price tries => rounds_cost price tries k + tries * price OHash + 2 * (n - 1) * price OPush
                    + price (OMsm (length (h_beta_powers s))) + price (OMsm (length (g_alpha_powers s)))) /\
  (forall x, snd out = Ok x ->
     number is_scale (fst out) = 4 * (n - 1) /\ committed (fst out) = 4 * (n - 1) /\ multiplied (fst out) = 2 * (n - 1) /\
     number is_push (fst out) = 2 * (n - 1) /\ number is_msm (fst out) = 2 /\ exponentiated (fst out) = 2 * (2 * n - 1) /\
     number is_pairing (fst out) = 0).
Proof.
  intros Ha Hb Hka Hkb n out.
  assert (HC : costs fuel out (fun price tries => rounds_cost price tries k + tries * price OHash + 2 * (n - 1) * price OPush
                    + price (OMsm (length (h_beta_powers s))) + price (OMsm (length (g_alpha_powers s))))).
  { apply btw_costs_le with (cost' := fun price tries => tipa_bill price tries k (length (h_beta_powers s)) (length (g_alpha_powers s))).
    - intros price. apply (tipa_btw D fuel price LMC RMC IPC ip k); auto.
    - intros price t. unfold tipa_bill, opening_bill. change (halves k (prove_round_bill price t)) with (rounds_cost price t k). fold n. lia. }
  split; [exact HC|]. intros x Ho. pose proof Ho as Ho'. unfold out in Ho'. rewrite erase_tipa_prove in Ho'.
  apply (tipa_ok_lengths LMC RMC IPC ip D fuel k) in Ho' as [Hh Hg]; auto. fold n in Hh, Hg. rewrite Hh, Hg in HC.
  split; [count1 HC x Ho 4|]. split; [count1 HC x Ho 4|]. split; [count1 HC x Ho 2|]. split; [count1 HC x Ho 0|].
  split; [count1 HC x Ho 0|]. split; [count1 HC x Ho 0|count1 HC x Ho 0].
Qed.
Print Assumptions C93_tipa_prove.

(** TIPA with a structured scalar message *)
Theorem C93_tssm_prove R (P : pairing) (MA MT KT : module (pK P)) (OA OT : carrier (pK P))
    (LMC : dhc R MA (pG2 P) OA) (IPC : dhc R MT KT OT) ip D fuel k s a b ka kt :
  length a = 2 ^ k -> length b = 2 ^ k -> length ka = 2 ^ k ->
  let n := 2 ^ k in
  let out := tssm_prove_t IPC ip D fuel LMC s (a, b) (ka, kt) in
  costs fuel out (fun price tries => rounds_cost price tries k + tries * price OHash + (n - 1) * price OPush
                    + price (OMsm (length (h_beta_powers s)))) /\
  (forall x, snd out = Ok x ->
     number is_scale (fst out) = 4 * (n - 1) /\ committed (fst out) = 4 * (n - 1) /\ multiplied (fst out) = 2 * (n - 1) /\
     number is_push (fst out) = n - 1 /\ number is_msm (fst out) = 1 /\ exponentiated (fst out) = 2 * n - 1 /\
     number is_pairing (fst out) = 0).
Proof.
  intros Ha Hb Hka n out.
  assert (HC : costs fuel out (fun price tries => rounds_cost price tries k + tries * price OHash + (n - 1) * price OPush
                    + price (OMsm (length (h_beta_powers s))))).
  { apply btw_costs_le with (cost' := fun price tries => tssm_bill price tries k (length (h_beta_powers s))).
    - intros price. apply (tssm_btw D fuel price LMC IPC ip k); auto.
    - intros price t. unfold tssm_bill, opening_bill. change (halves k (prove_round_bill price t)) with (rounds_cost price t k). fold n. lia. }
  split; [exact HC|]. intros x Ho. pose proof Ho as Ho'. unfold out in Ho'. rewrite erase_tssm_prove in Ho'.
  apply (tssm_ok_lengths LMC IPC ip D fuel k) in Ho'; auto. fold n in Ho'. rewrite Ho' in HC.
  split; [count1 HC x Ho 4|]. split; [count1 HC x Ho 4|]. split; [count1 HC x Ho 2|]. split; [count1 HC x Ho 0|].
  split; [count1 HC x Ho 0|]. split; [count1 HC x Ho 0|count1 HC x Ho 0].
Qed.
Print Assumptions C93_tssm_prove.

(** setup: 2n - 1 powers for either generator, and two more multiples *)
Theorem C93_setup R (P : pairing) (rs : sampler R (pK P)) :
  (forall (MT KT : module (pK P)) (OT : carrier (pK P)) (IPC : dhc R MT KT OT) rng n,
     let out := tipa_setup_t IPC rs rng n in
     costs 1 out (fun price _ => 2 * (2 * n - 1) * price OPush + (2 * (2 * n - 1) + 2) * price OScale)) /\
  (forall rng x_degree y_degree,
     let out := bpc_setup_t P rs rng x_degree y_degree in
     costs 1 out (fun price _ => (2 * x_degree + y_degree + 2) * price OPush + (2 * x_degree + y_degree + 4) * price OScale)).
Proof.
  split; intros.
  - apply btw_costs. intros price. apply tipa_setup_btw.
  - apply btw_costs_le with (cost' := fun price _ => (y_degree + 1 + (2 * x_degree + 1)) * price OPush + (y_degree + 1 + (2 * x_degree + 1) + 2) * price OScale).
    + intros price. apply bpc_setup_btw.
    + intros. f_equal; f_equal; lia.
Qed.
Print Assumptions C93_setup.

(** committing to a polynomial with nx rows and ny columns: one multi-exponentiation of ny bases per row and
    one pairing product of nx elements *)
Theorem C93_commit R (P : pairing) (E : penv) (r1 : sampler R (pG1 P)) (r2 : sampler R (pG2 P)) :
  (forall powers p, costs 1 (kzg_commit_t P powers p) (fun price _ => price (OMsm (length powers)))) /\
  (forall s p, let nx := length (step_by2 (h_beta_powers (fst s))) in let ny := length (snd s) in
     let out := bpc_commit_t P E r2 s p in
     costs 1 out (fun price _ => nx * price (OMsm ny) + price (OCommit nx)) /\
     (forall x, snd out = Ok x -> exponentiated (fst out) = nx * ny /\ committed (fst out) = nx)) /\
  (forall ck1 ck2 p, let nx := length ck2 in let ny := length ck1 in
     let out := tbpc_commit_t P E r1 r2 (ck1, ck2) p in
     costs 1 out (fun price _ => nx * price (OCommit ny) + price (OCommit nx)) /\
     (forall x, snd out = Ok x -> committed (fst out) = nx * ny + nx)).
Proof.
  split; [|split].
  - intros. apply btw_costs. intros price. apply kzg_commit_btw.
  - intros s p nx ny out.
    assert (HC : costs 1 out (fun price _ => nx * price (OMsm ny) + price (OCommit nx))) by (apply btw_costs; intros price; apply bpc_commit_btw).
    split; [exact HC|]. intros x Ho. split; [count1 HC x Ho 0|count1 HC x Ho 0].
  - intros ck1 ck2 p nx ny out.
    assert (HC : costs 1 out (fun price _ => nx * price (OCommit ny) + price (OCommit nx))) by (apply btw_costs; intros price; apply tbpc_commit_btw).
    split; [exact HC|]. intros x Ho. count1 HC x Ho 0.
Qed.
Print Assumptions C93_commit.

(** opening: group operations linear in nx + ny, field operations linear in nx * ny *)
Theorem C93_open R (P : pairing) (E : penv) D fuel (r2 : sampler R (pG2 P)) k s p coms point :
  let nx := 2 ^ k in let ny := length (snd s) in
  length (step_by2 (h_beta_powers (fst s))) = nx -> length coms = nx ->
  let out := bpc_open_t P E D fuel r2 s p coms point in
  costs fuel out (fun price tries =>
    nx * price OPush + ny * price (OProduct nx) + 2 * price (OMsm ny)
    + (rounds_cost price tries k + tries * price OHash + (nx - 1) * price OPush + price (OMsm (length (h_beta_powers (fst s)))))) /\
  (forall x, snd out = Ok x ->
     number is_scale (fst out) = 4 * (nx - 1) /\ committed (fst out) = 4 * (nx - 1) /\ exponentiated (fst out) = 2 * ny + (2 * nx - 1) /\
     number is_msm (fst out) = 3 /\ multiplied (fst out) = ny * nx + 2 * (nx - 1) /\ number is_push (fst out) = 2 * nx - 1 /\
     number is_pairing (fst out) = 0).
Proof.
  intros nx ny Hn Hc out.
  assert (HC : costs fuel out (fun price tries =>
    nx * price OPush + ny * price (OProduct nx) + 2 * price (OMsm ny)
    + (rounds_cost price tries k + tries * price OHash + (nx - 1) * price OPush + price (OMsm (length (h_beta_powers (fst s))))))).
  { apply btw_costs_le with (cost' := fun price tries => bpc_open_bill price tries k ny (length (h_beta_powers (fst s)))).
    - intros price. apply bpc_open_btw; auto.
    - intros price t. unfold bpc_open_bill, tssm_bill, opening_bill. change (halves k (prove_round_bill price t)) with (rounds_cost price t k). fold nx. lia. }
  split; [exact HC|]. intros x Ho. pose proof Ho as Ho'. unfold out in Ho'. rewrite erase_bpc_open in Ho'.
  destruct s as [ips ks], point as [px py]. cbn [fst snd] in *. unfold bpc_open in Ho'. cbn [get_commitment_keys fst] in Ho'.
  do 3 (apply rbind_ok in Ho' as [? [_ Ho']]). apply rbind_ok in Ho' as [ipp [Ho' _]].
  apply (tssm_ok_lengths _ _ _ D fuel k) in Ho'; auto; [|exact (eq_trans (push_powers_len _ _ _) Hn)]. fold nx in Ho'. rewrite Ho' in HC.
  pose proof (pow2_pos k) as Hpos. fold nx in Hpos.
  split; [count1 HC x Ho 4|]. split; [count1 HC x Ho 4|]. split; [count1 HC x Ho 0|]. split; [count1 HC x Ho 0|].
  split; [count1 HC x Ho 2|]. split; [count1 HC x Ho 0|count1 HC x Ho 0].
Qed.
Print Assumptions C93_open.

(** the transparent opening: ny and nx both powers of two *)
Theorem C93_transparent_open R (P : pairing) (E : penv) D fuel (r1 : sampler R (pG1 P)) (r2 : sampler R (pG2 P)) j k ck1 ck2 p coms point :
  let nx := 2 ^ k in let ny := 2 ^ j in
  length ck1 = ny -> length ck2 = nx -> length coms = nx ->
  let out := tbpc_open_t P E D fuel r1 r2 (ck1, ck2) p coms point in
  costs fuel out (fun price tries =>
    (ny + nx) * price OPush + ny * price (OProduct nx) + price (OCommit ny) + rounds_cost price tries k + rounds_cost price tries j) /\
  (forall x, snd out = Ok x ->
     number is_scale (fst out) = 4 * (nx - 1) + 4 * (ny - 1) /\ committed (fst out) = ny + 4 * (nx - 1) + 4 * (ny - 1) /\
     exponentiated (fst out) = 0 /\ multiplied (fst out) = ny * nx + 2 * (nx - 1) + 2 * (ny - 1) /\
     number is_push (fst out) = ny + nx /\ number is_pairing (fst out) = 0).
Proof.
  intros nx ny H1 H2 Hc out.
  assert (HC : costs fuel out (fun price tries =>
    (ny + nx) * price OPush + ny * price (OProduct nx) + price (OCommit ny) + rounds_cost price tries k + rounds_cost price tries j)).
  { apply btw_costs_le with (cost' := fun price tries => tbpc_open_bill price tries j k).
    - intros price. apply tbpc_open_btw; auto.
    - intros price t. reflexivity. }
  split; [exact HC|]. intros x Ho.
  split; [count1 HC x Ho 4|]. split; [count1 HC x Ho 4|]. split; [count1 HC x Ho 0|]. split; [count1 HC x Ho 2|].
  split; [count1 HC x Ho 0|count1 HC x Ho 0].
Qed.
Print Assumptions C93_transparent_open.

(** aggregating n = 2^k Groth16 proofs *)
Theorem C93_groth16_aggregate R (P : pairing) (E : penv) D fuel (r1 : sampler R (pG1 P)) (r2 : sampler R (pG2 P)) k s proofs :
  length proofs = 2 ^ k ->
  let n := 2 ^ k in
  let out := g16_aggregate_t P E D fuel r1 r2 s proofs in
  costs fuel out (fun price tries =>
    5 * price (OProduct n) + price (OMsm n) + 3 * tries * price OHash + (n + 3 * (n - 1)) * price OPush + 2 * n * price OScale
    + 2 * rounds_cost price tries k + 2 * price (OMsm (length (h_beta_powers s))) + price (OMsm (length (g_alpha_powers s)))) /\
  (forall x, snd out = Ok x ->
     number is_scale (fst out) = 2 * n + 8 * (n - 1) /\ committed (fst out) = 8 * (n - 1) /\
     multiplied (fst out) = 5 * n + 4 * (n - 1) /\ number is_push (fst out) = n + 3 * (n - 1) /\
     number is_msm (fst out) = 4 /\ exponentiated (fst out) = n + 3 * (2 * n - 1) /\ number is_pairing (fst out) = 0).
Proof.
  intros Hn n out.
  assert (HC : costs fuel out (fun price tries =>
    5 * price (OProduct n) + price (OMsm n) + 3 * tries * price OHash + (n + 3 * (n - 1)) * price OPush + 2 * n * price OScale
    + 2 * rounds_cost price tries k + 2 * price (OMsm (length (h_beta_powers s))) + price (OMsm (length (g_alpha_powers s))))).
  { apply btw_costs_le with (cost' := fun price tries => aggregate_bill price tries k (length (h_beta_powers s)) (length (g_alpha_powers s))).
    - intros price. apply aggregate_btw; auto.
    - intros price t. unfold aggregate_bill, tipa_bill, tssm_bill, opening_bill.
      change (halves k (prove_round_bill price t)) with (rounds_cost price t k). fold n. generalize (n - 1). intros. lia. }
  split; [exact HC|]. intros x Ho. pose proof Ho as Ho'. unfold out in Ho'. rewrite erase_aggregate in Ho'.
  unfold g16_aggregate in Ho'. cbv zeta in Ho'. destruct (get_commitment_keys s) as [k1 k2].
  apply rbind_ok in Ho' as [ca [H1 Ho']]. apply pairing_ip_len in H1. rewrite map_length, Hn in H1.
  apply rbind_ok in Ho' as [cb [H2 Ho']]. apply pairing_ip_len in H2. rewrite map_length, Hn in H2.
  do 2 (apply rbind_ok in Ho' as [? [_ Ho']]). apply rbind_ok in Ho' as [rv [Hrv Ho']].
  assert (Hr : length rv = 2 ^ k) by (rewrite structured_scalar_power_spec in Hrv; injection Hrv as <-; rewrite map_length, seq_length; pose proof (pow2_pos k); lia).
  do 2 (apply rbind_ok in Ho' as [? [_ Ho']]). apply rbind_ok in Ho' as [kr [Hkr Ho']]. apply rmapM_ok_length in Hkr. rewrite combine_length, Hr, <- H1, Nat.min_id in Hkr.
  do 2 (apply rbind_ok in Ho' as [? [_ Ho']]). apply rbind_ok in Ho' as [pab [Ho' _]].
  apply (tipa_ok_lengths _ _ _ _ D fuel k) in Ho' as [Hh Hg]; auto;
    [|rewrite zipw_length, map_length, Hn, Hr; apply Nat.min_id|rewrite map_length; exact Hn].
  fold n in Hh, Hg. rewrite Hh, Hg in HC.
  split; [count1 HC x Ho 4|]. split; [count1 HC x Ho 4|]. split; [count1 HC x Ho 2|]. split; [count1 HC x Ho 0|].
  split; [count1 HC x Ho 0|]. split; [count1 HC x Ho 0|count1 HC x Ho 0].
Qed.
Print Assumptions C93_groth16_aggregate.

(** ** Runs with 4 values *)
Definition summary' (t : list op) : list nat := skipn 1 (summary t) ++ [exponentiated t].
Example C93_tipa_example :
  (do s <- ex_srs 4;
   let '(ka, kb) := get_commitment_keys s in
   let out := tipa_prove_with_srs_shift_t (P := ZPair) (ex_L ex_env) (ex_R ex_env) ex_T
     (pairing_ip ZPair ex_env) toy_digest 9 s (PropsGipa.ex_a, PropsGipa.ex_b) (ka, kb, tt) f1 in
   do _ <- snd out; Ok (summary' (fst out))) = Ok [6; 12; 0; 0; 12; 4; 6; 2; 14].
Proof. vm_compute. reflexivity. Qed.
Example C93_opening_example :
  (do (s, _) <- bpc_setup ZPair ex_scalars 5%Z 3 1;
   let c := bpc_commit_t ZPair ex_env ex_rand s [zl [3; 4]; zl [5; 6]; []]%Z in
   do (com, coms) <- snd c;
   let out := bpc_open_t ZPair ex_env toy_digest 9 ex_rand s [zl [3; 4]; zl [5; 6]; []]%Z coms (zq 2, zq 10) in
   do _ <- snd out; Ok (summary' (fst c), summary' (fst out))) =
  Ok ([0; 0; 0; 0; 4; 0; 0; 4; 8], [7; 12; 0; 0; 12; 4; 14; 3; 11]).
Proof. vm_compute. reflexivity. Qed.
Example C93_transparent_example :
  (do (ck, _) <- tbpc_setup ZPair ex_env ex_rand ex_rand 5%Z 3 1;
   let c := tbpc_commit_t ZPair ex_env ex_rand ex_rand ck [zl [3; 4]; zl [5; 6]; []]%Z in
   do (com, coms) <- snd c;
   let out := tbpc_open_t ZPair ex_env toy_digest 9 ex_rand ex_rand ck [zl [3; 4]; zl [5; 6]; []]%Z coms (zq 2, zq 10) in
   do _ <- snd out; Ok (summary' (fst c), summary' (fst out))) =
  Ok ([0; 0; 0; 0; 12; 0; 0; 0; 0], [6; 16; 0; 0; 18; 6; 16; 0; 0]).
Proof. vm_compute. reflexivity. Qed.
Example C93_setup_example :
  let out := bpc_setup_t ZPair ex_scalars 5%Z 3 1 in
  (do _ <- snd out; Ok (summary' (fst out))) = Ok [9; 11; 0; 0; 0; 0; 0; 0; 0].
Proof. vm_compute. reflexivity. Qed.
Example C93_groth16_example :
  (do (s, _) <- g16_setup ZPair ex_scalars 2%Z (length ex_pfs);
   let out := g16_aggregate_t ZPair ex_env toy_digest 9 ex_rand ex_rand s ex_pfs in
   do _ <- snd out; Ok (length ex_pfs, summary' (fst out))) = Ok (2, [5; 12; 0; 0; 8; 4; 14; 4; 11]).
Proof. vm_compute. reflexivity. Qed.

(** ** The transparent commitment: overlong proofs (see C84 in PropsCost.v) *)
Lemma tbind_ok {A B} (x : traced A) (f : A -> traced B) a : snd x = Ok a -> tbind x f = (fst x ++ fst (f a), snd (f a)).
Proof. unfold tbind. now intros ->. Qed.
Lemma tbind_panic {A B} (x : traced A) (f : A -> traced B) : snd x = Panic -> tbind x f = (fst x, Panic).
Proof. unfold tbind. now intros ->. Qed.
Section OverlongSsm.
  Context {R : Type} {P : pairing} {MA MT KA KT : module (pK P)} {OA OT : carrier (pK P)}.
  Notation K := (pK P).
  Variables (LMC : dhc R MA KA OA) (IPC : dhc R MT KT OT) (ip : list MA -> list (fmod (pK P)) -> res MT).
  Variables (D : bytes -> bytes) (fuel : nat) (E : penv).
  Hypotheses (HD : digest16 D) (HL : rounds_end OA (mod_carrier (fmod (pK P))) OT D fuel).

  Lemma gssm_overlong j ka kt com b (proof : gssm_proof MA OA OT) :
    length ka = 2 ^ j -> length (gp_steps proof) <> j ->
    let out := gssm_verify_t IPC ip D fuel E LMC (ka, kt) com b proof in
    snd out = Panic /\ number is_push (fst out) = 2 * (2 ^ length (gp_steps proof) - 1).
  Proof using HD HL.
    intros Ha Hk out.
    assert (Hc : forall steps prev, exists cs, chain (OA := OA) (OB := mod_carrier (fmod K)) (OT := OT) D fuel prev steps cs).
    { induction steps as [|s steps IH]; intros prev; [eexists; constructor|].
      destruct (rounds_end_live D fuel HD HL prev (fst s) (snd s)) as [[c ci] Ec].
      destruct (IH c) as [cs Hcs]. exists (c :: cs). econstructor; eauto. }
    destruct (Hc (rev (gp_steps proof)) f0) as [cs Hch].
    assert (Hl : length (rev cs) = length (gp_steps proof)).
    { rewrite rev_length. apply chain_length in Hch. now rewrite rev_length in Hch. }
    set (com3 := (fst com, (f0 : mod_carrier (fmod K)), snd com)).
    assert (Hr : snd (gipa_recursive_challenges_t D fuel com3 proof) = Ok (cfold com3 (rev (gp_steps proof)) cs, rev cs)).
    { rewrite erase_recursive. now apply recursive_challenges_chain. }
    set (price := fun o => if is_push o then 1 else 0).
    set (ex := ck_exponents_t 0 (rev cs) [f1] [f1]).
    assert (Hn : Forall (fun x => x <> f0) (rev cs)) by (apply Forall_rev; eapply chain_nonzero; eauto).
    assert (Hee : snd ex = Ok (subs (map finv (rev cs)), subs (rev cs))).
    { unfold ex. rewrite erase_exponents, ck_exponents_ok by auto. reflexivity. }
    assert (Hex : bill price (fst ex) = 2 * (2 ^ length (gp_steps proof) - 1)).
    { apply Nat.le_antisymm.
      - pose proof (exponents_hi price (rev cs) 0 [f1] [f1]) as H. unfold hi in H. fold ex in H. rewrite Hl in H. cbn [Nat.pow Nat.add] in H.
        replace (price OPush) with 1 in H by reflexivity. lia.
      - pose proof (exponents_lo price (fun _ => True) (rev cs) 0 [f1] [f1] _ Hee I) as H. fold ex in H. rewrite Hl in H. cbn [Nat.pow Nat.add] in H.
        replace (price OPush) with 1 in H by reflexivity. lia. }
    assert (Hp0 : bill price (fst (gipa_recursive_challenges_t D fuel com3 proof)) = 0).
    { apply Nat.le_0_r. etransitivity; [apply recursive_hi|]. cbn. lia. }
    assert (Hf : gipa_final_keys_t ka (repeat (tt : unitmod K) (length ka)) (rev cs) = (fst ex, Panic)).
    { unfold gipa_final_keys_t. replace (is_power_of_two (length ka)) with true by (symmetry; apply is_power_of_two_spec; rewrite Ha; eauto).
      assert (Hln : (length (subs (map finv (rev cs))) =? length ka) = false).
      { apply Nat.eqb_neq. rewrite subs_length, map_length, Hl, Ha. intros He. apply Hk. now apply Nat.pow_inj_r in He; [|lia]. }
      rewrite (tbind_ok _ _ tt) by reflexivity. cbn [lift fst snd app]. fold ex. rewrite (tbind_ok _ _ _ Hee), Hln.
      rewrite tbind_panic by reflexivity. cbn [lift fst snd]. now rewrite app_nil_r. }
    unfold out, gssm_verify_t. fold com3. rewrite (tbind_ok _ _ _ Hr), Hf, tbind_panic by reflexivity. cbn [fst snd].
    split; [reflexivity|]. rewrite number_bill. fold price. rewrite bill_app. lia.
  Qed.
End OverlongSsm.

(** the second-tier proof is checked first: with another number of rounds than the logarithm of the key length,
    verification computes 2 (2^rounds - 1) elements and then panics *)
Theorem C84_transparent_overlong R (P : pairing) (E : penv) D fuel (r1 : sampler R (pG1 P)) (r2 : sampler R (pG2 P)) j ck1 ck2 com point eval proof :
  digest16 D -> rounds_end (mod_carrier (pGT P)) (mod_carrier (fmod (pK P))) (identity_output (pG1 P)) D fuel ->
  length ck2 = 2 ^ j -> length (gp_steps (to_second proof)) <> j ->
  let out := tbpc_verify_t P E D fuel r1 r2 (ck1, ck2) com point eval proof in
  snd out = Panic /\ number is_push (fst out) = 2 * (2 ^ length (gp_steps (to_second proof)) - 1).
Proof.
  intros HD HL Hj Hk out. destruct point as [x y].
  destruct (gssm_overlong (afgho_g1 P E r2) (identity (R := R) (pG1 P)) (multiexp_ip (pG1 P)) D fuel E HD HL j ck2 (tt : unitmod (pK P))
    ((com : mod_carrier (pGT P)), ([to_y_eval_comm proof] : identity_output (pG1 P))) x (to_second proof) Hj Hk) as [H1 H2].
  unfold out, tbpc_verify_t. rewrite tbind_panic by exact H1. auto.
Qed.
Print Assumptions C84_transparent_overlong.
Example C84_transparent_example :
  let steps := repeat ((zq 1, zq 1, [zq 1]), (zq 1, zq 1, [zq 1])) 8 in
  let proof := mk_t_opening (P := ZPair) (mk_gipa_proof (MA := ZM) (MB := fmod ZP) (OA := mod_carrier ZM) (OB := mod_carrier (fmod ZP)) (OT := identity_output ZM) steps (zq 1, zq 1)) (zq 1)
                 (mk_gipa_proof (MA := fmod ZP) (MB := fmod ZP) (OA := mod_carrier ZM) (OB := mod_carrier (fmod ZP)) (OT := identity_output (fmod ZP)) [] (zq 1, zq 1)) in
  let out := tbpc_verify_t ZPair ex_env1 one_digest 1 ex_rand ex_rand (zl [1; 2], zl [1; 2; 3; 4])%Z (zq 1) (zq 1, zq 2) (zq 3) proof in
  snd out = Panic /\ number is_push (fst out) = 510.
Proof. vm_compute. split; reflexivity. Qed.

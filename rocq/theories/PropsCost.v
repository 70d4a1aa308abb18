(** C83, C84: how many expensive operations provers and verifiers perform. *)
Require Import List Arith NArith ZArith Lia Bool.
Import ListNotations.
Require Import Verif.Outcome Verif.Algebra Verif.Zp Verif.Rust Verif.InnerProducts Verif.Commitments
  Verif.Poly Verif.Gipa Verif.Tipa Verif.Ssm Verif.Floats Verif.PolyCommit Verif.Transparent Verif.Rng Verif.Sipp Verif.Groth16 Verif.Cost
  Verif.Spec Verif.ListFacts Verif.RustFacts Verif.InnerProductFacts Verif.CommitFacts
  Verif.GipaFacts Verif.GipaComplete Verif.GipaTop Verif.PolyFacts Verif.SerFacts Verif.FloatFacts Verif.SippFacts Verif.CostFacts
  Verif.PropsBase Verif.PropsGipa Verif.PropsTipa Verif.PropsSsm Verif.PropsPoly Verif.PropsSipp Verif.PropsGroth.

(** number of operations of one kind *)
Definition number (p : op -> bool) (t : list op) : nat := length (filter p t).
Definition is_pairing (o : op) : bool := match o with OPairing => true | _ => false end.
Definition is_push (o : op) : bool := match o with OPush => true | _ => false end.
Definition is_scale (o : op) : bool := match o with OScale => true | _ => false end.
Definition is_msm (o : op) : bool := match o with OMsm _ => true | _ => false end.
(** number of messages committed to, and of elements in inner products *)
Definition committed (t : list op) : nat := bill (fun o => match o with OCommit n => n | _ => 0 end) t.
Definition multiplied (t : list op) : nat := bill (fun o => match o with OProduct n => n | _ => 0 end) t.

Lemma number_bill p t : number p t = bill (fun o => if p o then 1 else 0) t.
Proof. unfold number. induction t as [|o t IH]; cbn; [reflexivity|]. destruct (p o); cbn; lia. Qed.

Lemma bill_first {A B} price (x : traced A) (f : A -> traced B) : bill price (fst x) <= bill price (fst (tbind x f)).
Proof. unfold tbind. destruct (snd x); cbn [fst]; rewrite ?bill_app; lia. Qed.

(** ** The lists of operations belong to the programs of the model *)
Theorem C83_same_programs R (P : pairing) (E : penv) (S : stream) D fuel (r1 : sampler R (pG1 P)) (r2 : sampler R (pG2 P)) :
  (forall (K : field) (MA MB MT KA KB KT : module K) (OA OB OT : carrier K)
     (LMC : dhc R MA KA OA) (RMC : dhc R MB KB OB) (IPC : dhc R MT KT OT) ip values ck ck' com proof,
     snd (gipa_prove_with_aux_t LMC RMC IPC ip D fuel values ck) = gipa_prove_with_aux LMC RMC IPC ip D fuel values ck /\
     snd (gipa_verify_t LMC RMC IPC ip D fuel ck' com proof) = gipa_verify LMC RMC IPC ip D fuel ck' com proof) /\
  (forall (MA MB MT KT : module (pK P)) (OA OB OT : carrier (pK P))
     (LMC : dhc R MA (pG2 P) OA) (RMC : dhc R MB (pG1 P) OB) (IPC : dhc R MT KT OT) ip v kt com proof r,
     snd (tipa_verify_with_srs_shift_t LMC RMC IPC ip D fuel v kt com proof r) =
     tipa_verify_with_srs_shift LMC RMC IPC ip D fuel v kt com proof r) /\
  (forall (MA MT KA KT : module (pK P)) (OA OT : carrier (pK P)) (LMC : dhc R MA KA OA) (IPC : dhc R MT KT OT) ip ck com b proof,
     snd (gssm_verify_t IPC ip D fuel E LMC ck com b proof) = gssm_verify LMC IPC ip D fuel E ck com b proof) /\
  (forall (MA MT KT : module (pK P)) (OA OT : carrier (pK P)) (LMC : dhc R MA (pG2 P) OA) (IPC : dhc R MT KT OT) ip v kt com b proof,
     snd (tssm_verify_t IPC ip D fuel E LMC v kt com b proof) = tssm_verify LMC IPC ip D fuel E v kt com b proof) /\
  (forall v com point eval proof,
     snd (bpc_verify_t P E D fuel r2 v com point eval proof) = bpc_verify P E D fuel r2 v com point eval proof) /\
  (forall ck com point eval proof,
     snd (tbpc_verify_t P E D fuel r1 r2 ck com point eval proof) = tbpc_verify P E D fuel r1 r2 ck com point eval proof) /\
  (forall v vk rows proof,
     snd (g16_verify_t P E D fuel r1 r2 v vk rows proof) = g16_verify P E D fuel r1 r2 v vk rows proof) /\
  (forall a b r v, snd (sipp_prove_t P E S D a b r v) = sipp_prove P E S D a b r v) /\
  (forall a b r v proof, snd (sipp_verify_t P E S D a b r v proof) = sipp_verify P E S D a b r v proof).
Proof.
  repeat match goal with |- _ /\ _ => split end; intros.
  - split; [apply erase_prove|apply erase_gipa_verify].
  - apply erase_tipa.
  - apply erase_gssm.
  - apply erase_tssm.
  - apply erase_bpc.
  - apply erase_tbpc.
  - apply erase_g16.
  - apply erase_sipp_prove.
  - apply erase_sipp_verify.
Qed.
Print Assumptions C83_same_programs.

(** ** Verifiers: for every price list, whatever the proof and the outcome.  An accepted proof costs at
    least the same with one digest call per challenge, so without the digest calls the cost is exact. *)
Theorem C83_tipa_verify R (P : pairing) (MA MB MT KT : module (pK P)) (OA OB OT : carrier (pK P))
    (LMC : dhc R MA (pG2 P) OA) (RMC : dhc R MB (pG1 P) OB) (IPC : dhc R MT KT OT) ip D fuel v kt com proof r price :
  let out := tipa_verify_with_srs_shift_t LMC RMC IPC ip D fuel v kt com proof r in
  let rounds := length (gp_steps (tp_gipa proof)) in
  let cost tries := rounds * (tries * price OHash + 6 * price OScaleCom)
                    + tries * price OHash + 4 * price OScale + 4 * price OPairing
                    + price (OProduct 1) + 2 * price (OCommit 1) + price (OCommitT 1) in
  bill price (fst out) <= cost fuel /\ (snd out = Ok true -> cost 1 <= bill price (fst out)).
Proof.
  intros out rounds cost. split.
  - pose proof (tipa_hi D fuel price LMC RMC IPC ip v kt com proof r) as H. unfold hi in H. fold out rounds in H.
    unfold tipa_bill, rounds_bill, base_bill in H. unfold cost. lia.
  - intros Hr. pose proof (tipa_lo D fuel price LMC RMC IPC ip v kt com proof r true Hr eq_refl) as H. fold out rounds in H.
    unfold tipa_bill, rounds_bill, base_bill in H. unfold cost. lia.
Qed.
Print Assumptions C83_tipa_verify.

Theorem C83_tssm_verify R (P : pairing) (MA MT KT : module (pK P)) (OA OT : carrier (pK P))
    (LMC : dhc R MA (pG2 P) OA) (IPC : dhc R MT KT OT) ip D fuel E v kt com b proof price :
  let out := tssm_verify_t IPC ip D fuel E LMC v kt com b proof in
  let rounds := length (gp_steps (ts_gipa proof)) in
  let cost tries := rounds * (tries * price OHash + 6 * price OScaleCom)
                    + tries * price OHash + 2 * price OScale + 2 * price OPairing
                    + price (OProduct 1) + price (OCommit 1) + price (OCommitT 1) in
  bill price (fst out) <= cost fuel /\ (snd out = Ok true -> cost 1 <= bill price (fst out)).
Proof.
  intros out rounds cost. split.
  - pose proof (tssm_hi D fuel price E IPC ip LMC v kt com b proof) as H. unfold hi in H. fold out rounds in H.
    unfold tssm_bill, rounds_bill, base_bill in H. unfold cost. lia.
  - intros Hr. pose proof (tssm_lo D fuel price E IPC ip LMC v kt com b proof true Hr eq_refl) as H. fold out rounds in H.
    unfold tssm_bill, rounds_bill, base_bill in H. unfold cost. lia.
Qed.
Print Assumptions C83_tssm_verify.

(** the openings of the polynomial commitment with a trusted setup *)
Theorem C83_opening_verify R (P : pairing) (E : penv) D fuel (r2 : sampler R (pG2 P)) v com point eval proof price :
  let out := bpc_verify_t P E D fuel r2 v com point eval proof in
  let rounds := length (gp_steps (ts_gipa (op_ip proof))) in
  let cost tries := rounds * (tries * price OHash + 6 * price OScaleCom)
                    + tries * price OHash + 4 * price OScale + 4 * price OPairing
                    + price (OProduct 1) + price (OCommit 1) + price (OCommitT 1) in
  bill price (fst out) <= cost fuel /\ (snd out = Ok true -> cost 1 <= bill price (fst out)).
Proof.
  intros out rounds cost. split.
  - pose proof (bpc_hi P E D fuel r2 price v com point eval proof) as H. unfold hi in H. fold out rounds in H.
    unfold tssm_bill, rounds_bill, base_bill in H. unfold cost. lia.
  - intros Hr. pose proof (bpc_lo P E D fuel r2 price v com point eval proof true Hr eq_refl) as H. fold out rounds in H.
    unfold tssm_bill, rounds_bill, base_bill in H. unfold cost. lia.
Qed.
Print Assumptions C83_opening_verify.

(** aggregated Groth16 proofs: [n] rows of public inputs, [l + 1] elements in the verifying key *)
Theorem C83_groth16_verify R (P : pairing) (E : penv) D fuel (r1 : sampler R (pG1 P)) (r2 : sampler R (pG2 P)) v vk rows proof price :
  let out := g16_verify_t P E D fuel r1 r2 v vk rows proof in
  let rounds := length (gp_steps (tp_gipa (ag_tipa_ab proof))) + length (gp_steps (ts_gipa (ag_tipa_c proof))) in
  let n := length rows in
  let l := length (vk_gamma_abc_g1 vk) - 1 in
  let cost tries := rounds * (tries * price OHash + 6 * price OScaleCom)
                    + 3 * tries * price OHash + (8 + l) * price OScale + 9 * price OPairing
                    + 2 * price (OProduct 1) + 3 * price (OCommit 1) + 2 * price (OCommitT 1)
                    + n * price OPush + l * price (OProduct n) in
  bill price (fst out) <= cost fuel /\ (snd out = Ok true -> cost 1 <= bill price (fst out)).
Proof.
  intros out rounds n l cost. split.
  - pose proof (g16_hi P E D fuel r1 r2 price v vk rows proof) as H. unfold hi in H. fold out n l in H.
    unfold g16_bill, ppe_bill, tipa_bill, tssm_bill, rounds_bill, base_bill in H. unfold cost, rounds. lia.
  - intros Hr. pose proof (g16_lo P E D fuel r1 r2 price v vk rows proof true Hr eq_refl) as H. fold out n l in H.
    unfold g16_bill, ppe_bill, tipa_bill, tssm_bill, rounds_bill, base_bill in H. unfold cost, rounds. lia.
Qed.
Print Assumptions C83_groth16_verify.

(** GIPA folds the keys itself: linear in the keys, and exponential in the number of submitted rounds *)
Theorem C83_gipa_verify R (K : field) (MA MB MT KA KB KT : module K) (OA OB OT : carrier K)
    (LMC : dhc R MA KA OA) (RMC : dhc R MB KB OB) (IPC : dhc R MT KT OT) ip D fuel ka kb kt com proof price :
  let out := gipa_verify_t LMC RMC IPC ip D fuel (ka, kb, kt) com proof in
  let rounds := length (gp_steps proof) in
  let cost tries := rounds * (tries * price OHash + 6 * price OScaleCom)
                    + 2 * (2 ^ rounds - 1) * price OPush + (length ka + length kb) * price OScale
                    + price (OProduct 1) + 2 * price (OCommit 1) + price (OCommitT 1) in
  bill price (fst out) <= cost fuel /\ (snd out = Ok true -> cost 1 <= bill price (fst out) /\ 2 ^ rounds = length ka).
Proof.
  intros out rounds cost. split.
  - pose proof (gipa_hi LMC RMC IPC ip D fuel price ka kb kt com proof) as H. unfold hi in H. fold out rounds in H.
    unfold gipa_bill, rounds_bill, base_bill in H. unfold cost. lia.
  - intros Hr. split.
    + pose proof (gipa_lo LMC RMC IPC ip D fuel price ka kb kt com proof true Hr eq_refl) as H. fold out rounds in H.
      unfold gipa_bill, rounds_bill, base_bill in H. unfold cost. lia.
    + unfold out in Hr. rewrite erase_gipa_verify in Hr. apply C11_answer_means_log_rounds in Hr as [Hr _]. now symmetry.
Qed.
Print Assumptions C83_gipa_verify.

(** the transparent polynomial commitment *)
Theorem C83_transparent_verify R (P : pairing) (E : penv) D fuel (r1 : sampler R (pG1 P)) (r2 : sampler R (pG2 P)) k1 k2 com point eval proof price :
  let out := tbpc_verify_t P E D fuel r1 r2 (k1, k2) com point eval proof in
  let a := length (gp_steps (to_first proof)) in
  let b := length (gp_steps (to_second proof)) in
  let cost tries := (a + b) * (tries * price OHash + 6 * price OScaleCom)
                    + (2 * (2 ^ a - 1) + 2 * (2 ^ b - 1)) * price OPush + 2 * (length k1 + length k2) * price OScale
                    + 4 * price (OProduct 1) + 6 * price (OCommit 1) + 4 * price (OCommitT 1) in
  bill price (fst out) <= cost fuel /\ (snd out = Ok true -> cost 1 <= bill price (fst out)).
Proof.
  intros out a b cost. split.
  - pose proof (tbpc_hi P E D fuel r1 r2 price k1 k2 com point eval proof) as H. unfold hi in H. fold out a b in H.
    unfold gssm_bill, gipa_bill, rounds_bill, base_bill in H. unfold cost. lia.
  - intros Hr. pose proof (tbpc_lo P E D fuel r1 r2 price k1 k2 com point eval proof true Hr eq_refl) as H. fold out a b in H.
    unfold gssm_bill, gipa_bill, rounds_bill, base_bill in H. unfold cost. lia.
Qed.
Print Assumptions C83_transparent_verify.

(** SIPP: a single pairing (the claim of the module's documentation), two multi-exponentiations *)
Theorem C83_sipp_verify (P : pairing) (E : penv) (S : stream) D a b r v proof :
  let out := sipp_verify_t P E S D a b r v proof in
  let rounds := length proof in
  (forall price,
    let cost := (1 + rounds) * price OHash + 2 * rounds * price OScaleCom + 2 * price (OMsm (length a)) + price OPairing in
    bill price (fst out) <= cost /\ (forall ok, snd out = Ok ok -> bill price (fst out) = cost)) /\
  (forall ok, snd out = Ok ok -> u64_bound (length a) ->
     number is_pairing (fst out) = 1 /\ number is_msm (fst out) = 2 /\ length a = 2 ^ rounds).
Proof.
  intros out rounds.
  assert (H0 : forall price,
    let cost := (1 + rounds) * price OHash + 2 * rounds * price OScaleCom + 2 * price (OMsm (length a)) + price OPairing in
    bill price (fst out) <= cost /\ (forall ok, snd out = Ok ok -> bill price (fst out) = cost)).
  { intros price cost. pose proof (sipp_verify_hi P E S D price a b r v proof) as H. unfold hi in H. fold out rounds in H.
    split; [exact H|]. intros ok Hok. apply Nat.le_antisymm; [exact H|].
    apply (sipp_verify_lo P E S D price (fun _ => True) a b r v proof ok Hok I). }
  split; [exact H0|]. intros ok Hok Hu. rewrite !number_bill. repeat split.
  - rewrite (proj2 (H0 _) ok Hok). cbn. lia.
  - rewrite (proj2 (H0 _) ok Hok). cbn. lia.
  - unfold out in Hok. rewrite erase_sipp_verify in Hok.
    destruct (sipp_verify_inv E S D a b r v proof ok) as (k & Hk & Ha & Hb & Hz & Hr); auto.
    + assert (length a = 2 ^ Nat.log2 (length a)) as Hl; [|rewrite Hl in Hu; now apply u64_log].
      unfold sipp_verify in Hok. apply rbind_ok in Hok as [u1 [H1 _]]. apply rassert_ok, Nat.eqb_eq, count_ones_pow2 in H1 as [k Hk].
      rewrite Hk at 1. now rewrite Hk, Nat.log2_pow2 by lia.
    + unfold rounds. congruence.
Qed.
Print Assumptions C83_sipp_verify.

(** ** Provers *)
Theorem C83_gipa_prove R (K : field) (MA MB MT KA KB KT : module K) (OA OB OT : carrier K)
    (LMC : dhc R MA KA OA) (RMC : dhc R MB KB OB) (IPC : dhc R MT KT OT) ip D fuel k a b ka kb kt :
  length a = 2 ^ k -> length b = 2 ^ k -> length ka = 2 ^ k -> length kb = 2 ^ k ->
  let out := gipa_prove_with_aux_t LMC RMC IPC ip D fuel (a, b) (ka, kb, kt) in
  (forall price,
    let cost tries := list_sum (map (fun j =>
          tries * price OHash + 4 * price (OCommit (2 ^ j)) + 2 * price (OProduct (2 ^ j)) + 2 * price (OCommitT 1)
          + 4 * 2 ^ j * price OScale) (seq 0 k)) in
    bill price (fst out) <= cost fuel /\ (forall x, snd out = Ok x -> cost 1 <= bill price (fst out))) /\
  (forall x, snd out = Ok x ->
     number is_scale (fst out) = 4 * (2 ^ k - 1) /\ committed (fst out) = 4 * (2 ^ k - 1) /\ multiplied (fst out) = 2 * (2 ^ k - 1)).
Proof.
  intros Ha Hb Hka Hkb out.
  assert (H0 : forall price, 
    bill price (fst out) <= halves k (prove_round_bill price fuel) /\
    (forall x, snd out = Ok x -> halves k (prove_round_bill price 1) <= bill price (fst out))).
  { intros price. destruct (prove_cost LMC RMC IPC ip D fuel price k a b ka kb kt Ha Hb Hka Hkb) as [H1 H2].
    split; [exact H1|]. intros x Ho. exact (H2 x Ho I). }
  split; [exact H0|]. intros x Ho. rewrite number_bill. unfold committed, multiplied.
  assert (Hs : forall price m, (forall h t, prove_round_bill price t h = m * h) -> bill price (fst out) = m * (2 ^ k - 1)).
  { intros price m Hp. destruct (H0 price) as [H1 H2]. specialize (H2 x Ho).
    assert (He : forall t, halves k (prove_round_bill price t) = m * (2 ^ k - 1)).
    { intros t. clear -Hp. induction k as [|j IH]; [cbn; lia|]. rewrite halves_S, IH, Hp. cbn [Nat.pow]. pose proof (pow2_pos j). nia. }
    rewrite He in H1, H2. lia. }
  repeat split; apply Hs; intros; unfold prove_round_bill; cbn; lia.
Qed.
Print Assumptions C83_gipa_prove.

Theorem C83_sipp_prove (P : pairing) (E : penv) (S : stream) D k (a : list (pG1 P)) (b : list (pG2 P)) r v :
  length a = 2 ^ k -> length b = 2 ^ k -> 2 ^ k <= length r ->
  let out := sipp_prove_t P E S D a b r v in
  (forall price,
    let cost := price OHash + 2 ^ k * price OScale
                + list_sum (map (fun j => price OHash + 2 * price (OProduct (2 ^ j)) + 4 * 2 ^ j * price OScale) (seq 0 k)) in
    bill price (fst out) <= cost /\ (forall x, snd out = Ok x -> bill price (fst out) = cost)) /\
  (forall x, snd out = Ok x ->
     number is_scale (fst out) = 2 ^ k + 4 * (2 ^ k - 1) /\ multiplied (fst out) = 2 * (2 ^ k - 1)).
Proof.
  intros Ha Hb Hr out.
  assert (H0 : forall price, let cost := price OHash + 2 ^ k * price OScale + halves k (sipp_round_bill price) in
    bill price (fst out) <= cost /\ (forall x, snd out = Ok x -> bill price (fst out) = cost)).
  { intros price cost. destruct (sipp_prove_cost P E S D price k a b r v Ha Hb Hr) as [H1 H2].
    split; [exact H1|]. intros x Ho. apply Nat.le_antisymm; [exact H1|exact (H2 x Ho I)]. }
  split; [exact H0|]. intros x Ho. rewrite number_bill. unfold multiplied.
  rewrite !(fun p => proj2 (H0 p) x Ho). cbn beta iota.
  assert (He : forall price m, (forall h, sipp_round_bill price h = m * h) -> halves k (sipp_round_bill price) = m * (2 ^ k - 1)).
  { intros price m Hp. clear -Hp. induction k as [|j IH]; [cbn; lia|]. rewrite halves_S, IH, Hp. cbn [Nat.pow]. pose proof (pow2_pos j). nia. }
  split; [rewrite (He _ 4)|rewrite (He _ 2)]; try lia; intros; unfold sipp_round_bill; cbn; lia.
Qed.
Print Assumptions C83_sipp_prove.

(** ** Honest proofs have log n rounds, so verification is logarithmic in n *)
Lemma prove_loop_rounds {R} {K : field} {MA MB MT KA KB KT : module K} {OA OB OT : carrier K}
    (LMC : dhc R MA KA OA) (RMC : dhc R MB KB OB) (IPC : dhc R MT KT OT) ip D fuel k : forall n a b ka kb kt st tr m c st' tr',
  length a = 2 ^ k -> gipa_prove_loop LMC RMC IPC ip D fuel n a b ka kb kt st tr = Ok (m, c, st', tr') ->
  length st' = length st + k.
Proof.
  induction k as [|k IH]; intros n a b ka kb kt st tr m c st' tr' Ha H.
  - assert (E1 : (length a =? 1) = true) by (apply Nat.eqb_eq; exact Ha).
    destruct n; cbn [gipa_prove_loop] in H; rewrite E1 in H;
      apply rbind_ok in H as [? [_ H]]; apply rbind_ok in H as [? [_ H]]; apply rbind_ok in H as [? [_ H]]; apply rbind_ok in H as [? [_ H]];
      injection H as _ _ <- _; lia.
  - assert (E1 : (length a =? 1) = false).
    { apply Nat.eqb_neq. rewrite Ha. cbn [Nat.pow]. pose proof (pow2_pos k). lia. }
    assert (E2 : length a / 2 = 2 ^ k) by (rewrite Ha; cbn [Nat.pow]; rewrite Nat.mul_comm; apply Nat.div_mul; lia).
    destruct n; cbn [gipa_prove_loop] in H; rewrite E1 in H; [discriminate|]. cbv zeta in H. rewrite E2 in H.
    apply rbind_ok in H as [a1 [H1 H]]. apply rbind_ok in H as [a2 [H2 H]].
    do 6 (apply rbind_ok in H as [? [_ H]]). apply rbind_ok in H as [c1 [_ H]]. apply rbind_ok in H as [c2 [_ H]].
    apply rbind_ok in H as [[cc cci] [_ H]]. apply IH in H.
    + rewrite H, app_length. cbn. lia.
    + apply half_len in H1; auto. apply half_len' in H2; auto. unfold rescale. rewrite zipw_length. lia.
Qed.

Lemma prove_aux_rounds {R} {K : field} {MA MB MT KA KB KT : module K} {OA OB OT : carrier K}
    (LMC : dhc R MA KA OA) (RMC : dhc R MB KB OB) (IPC : dhc R MT KT OT) ip D fuel k a b ck proof aux :
  length a = 2 ^ k -> gipa_prove_with_aux LMC RMC IPC ip D fuel (a, b) ck = Ok (proof, aux) -> length (gp_steps proof) = k.
Proof.
  intros Ha H. destruct ck as [[ka kb] kt]. unfold gipa_prove_with_aux in H. apply rbind_ok in H as [_u [_ H]].
  apply rbind_ok in H as [[[[m c] st] tr] [H1 H]]. injection H as <- _. cbn. rewrite rev_length.
  apply (prove_loop_rounds LMC RMC IPC ip D fuel k) in H1; auto.
Qed.

Lemma tipa_prove_rounds {R} {P : pairing} {MA MB MT KT : module (pK P)} {OA OB OT : carrier (pK P)}
    (LMC : dhc R MA (pG2 P) OA) (RMC : dhc R MB (pG1 P) OB) (IPC : dhc R MT KT OT) ip D fuel k s a b ck r proof :
  length a = 2 ^ k -> tipa_prove_with_srs_shift LMC RMC IPC ip D fuel s (a, b) ck r = Ok proof ->
  length (gp_steps (tp_gipa proof)) = k.
Proof.
  intros Ha H. destruct ck as [[ka kb] kt]. unfold tipa_prove_with_srs_shift in H.
  apply rbind_ok in H as [[pr aux] [H1 H]]. destruct (ga_ck_base aux) as [fa fb].
  do 6 (apply rbind_ok in H as [? [_ H]]). injection H as <-. exact (prove_aux_rounds LMC RMC IPC ip D fuel k _ _ _ _ _ Ha H1).
Qed.
Lemma tssm_prove_rounds {R} {P : pairing} {MA MT KT : module (pK P)} {OA OT : carrier (pK P)}
    (LMC : dhc R MA (pG2 P) OA) (IPC : dhc R MT KT OT) ip D fuel k s a b ck proof :
  length a = 2 ^ k -> tssm_prove LMC IPC ip D fuel s (a, b) ck = Ok proof -> length (gp_steps (ts_gipa proof)) = k.
Proof.
  intros Ha H. destruct ck as [ka kt]. unfold tssm_prove in H.
  apply rbind_ok in H as [[pr aux] [H1 H]]. destruct (ga_ck_base aux) as [fa fb].
  do 4 (apply rbind_ok in H as [? [_ H]]). injection H as <-. exact (prove_aux_rounds _ _ _ _ D fuel k _ _ _ _ _ Ha H1).
Qed.

(** whatever statement the honest proof for 2^k values is checked against *)
Theorem C83_tipa_succinct R (P : pairing) (MA MB MT KT : module (pK P)) (OA OB OT : carrier (pK P))
    (LMC : dhc R MA (pG2 P) OA) (RMC : dhc R MB (pG1 P) OB) (IPC : dhc R MT KT OT) ip D fuel k s a b ck r proof :
  length a = 2 ^ k -> tipa_prove_with_srs_shift LMC RMC IPC ip D fuel s (a, b) ck r = Ok proof ->
  forall v kt com r', let ops := fst (tipa_verify_with_srs_shift_t LMC RMC IPC ip D fuel v kt com proof r') in
  number is_pairing ops <= 4 /\ number is_scale ops <= 4 /\
  forall price, bill price ops <= (k + 1) * (fuel * price OHash + 6 * price OScaleCom) + 4 * price OScale + 4 * price OPairing
                    + price (OProduct 1) + 2 * price (OCommit 1) + price (OCommitT 1).
Proof.
  intros Ha H v kt com r' ops. pose proof (tipa_prove_rounds LMC RMC IPC ip D fuel k s a b ck r proof Ha H) as Hk.
  assert (H0 : forall price, bill price ops <= k * (fuel * price OHash + 6 * price OScaleCom) + fuel * price OHash + 4 * price OScale + 4 * price OPairing
                    + price (OProduct 1) + 2 * price (OCommit 1) + price (OCommitT 1)).
  { intros price. rewrite <- Hk. apply (C83_tipa_verify R P MA MB MT KT OA OB OT LMC RMC IPC ip D fuel v kt com proof r' price). }
  rewrite !number_bill. repeat split.
  - etransitivity; [apply H0|]. cbn. lia.
  - etransitivity; [apply H0|]. cbn. lia.
  - intros price. specialize (H0 price). lia.
Qed.
Print Assumptions C83_tipa_succinct.

Theorem C83_groth16_succinct R (P : pairing) (E : penv) D fuel (r1 : sampler R (pG1 P)) (r2 : sampler R (pG2 P)) k s proofs proof :
  length proofs = 2 ^ k -> g16_aggregate P E D fuel r1 r2 s proofs = Ok proof ->
  forall v vk rows, let ops := fst (g16_verify_t P E D fuel r1 r2 v vk rows proof) in
  let l := length (vk_gamma_abc_g1 vk) - 1 in
  number is_pairing ops <= 9 /\ number is_scale ops <= 8 + l /\
  forall price, bill price ops <= 2 * k * (fuel * price OHash + 6 * price OScaleCom)
                    + 3 * fuel * price OHash + (8 + l) * price OScale + 9 * price OPairing
                    + 2 * price (OProduct 1) + 3 * price (OCommit 1) + 2 * price (OCommitT 1)
                    + length rows * price OPush + l * price (OProduct (length rows)).
Proof.
  intros Hn H v vk rows ops l.
  assert (Hk : length (gp_steps (tp_gipa (ag_tipa_ab proof))) = k /\ length (gp_steps (ts_gipa (ag_tipa_c proof))) = k).
  { unfold g16_aggregate in H. cbv zeta in H. destruct (get_commitment_keys s) as [k1 k2].
    do 4 (apply rbind_ok in H as [? [_ H]]). apply rbind_ok in H as [rv [Hrv H]].
    do 5 (apply rbind_ok in H as [? [_ H]]). apply rbind_ok in H as [pab [H1 H]]. apply rbind_ok in H as [pc [H2 H]].
    injection H as <-. cbn [ag_tipa_ab ag_tipa_c]. split.
    - eapply tipa_prove_rounds; [|exact H1]. rewrite structured_scalar_power_spec in Hrv. injection Hrv as <-.
      rewrite zipw_length, !map_length, seq_length, Hn. pose proof (pow2_pos k). lia.
    - eapply tssm_prove_rounds; [|exact H2]. now rewrite map_length. }
  destruct Hk as [Hk1 Hk2].
  assert (H0 : forall price, bill price ops <= 2 * k * (fuel * price OHash + 6 * price OScaleCom)
                    + 3 * fuel * price OHash + (8 + l) * price OScale + 9 * price OPairing
                    + 2 * price (OProduct 1) + 3 * price (OCommit 1) + 2 * price (OCommitT 1)
                    + length rows * price OPush + l * price (OProduct (length rows))).
  { intros price. pose proof (proj1 (C83_groth16_verify R P E D fuel r1 r2 v vk rows proof price)) as H1. cbv zeta in H1.
    rewrite Hk1, Hk2 in H1. fold ops l in H1. replace (2 * k) with (k + k) by lia. exact H1. }
  rewrite !number_bill. repeat split; auto; (etransitivity; [apply H0|]); cbn; lia.
Qed.
Print Assumptions C83_groth16_succinct.

(** ** GIPA: the exponent vectors are built before their length is compared with the keys *)
Section Overlong.
  Context {R : Type} {K : field} {MA MB MT KA KB KT : module K} {OA OB OT : carrier K}.
  Variables (LMC : dhc R MA KA OA) (RMC : dhc R MB KB OB) (IPC : dhc R MT KT OT) (ip : list MA -> list MB -> res MT).
  Variables (D : bytes -> bytes) (fuel : nat).
  Hypotheses (HD : digest16 D) (HL : rounds_end OA OB OT D fuel).

  Theorem C84_gipa_overlong j ka kb kt com (proof : gipa_proof MA MB OA OB OT) :
    length ka = 2 ^ j -> length kb = 2 ^ j -> length (gp_steps proof) <> j ->
    let out := gipa_verify_t LMC RMC IPC ip D fuel (ka, kb, kt) com proof in
    snd out = Panic /\ number is_push (fst out) = 2 * (2 ^ length (gp_steps proof) - 1).
  Proof using HD HL.
    intros Ha Hb Hk out. split.
    { unfold out. rewrite erase_gipa_verify. eapply C11_wrong_rounds_panic; eauto. }
    rewrite number_bill. set (price := fun o => if is_push o then 1 else 0).
    apply Nat.le_antisymm.
    { pose proof (gipa_hi LMC RMC IPC ip D fuel price ka kb kt com proof) as H. unfold hi in H. fold out in H.
      etransitivity; [exact H|]. unfold gipa_bill, rounds_bill, base_bill, price. cbn [is_push]. lia. }
    assert (Hc : forall steps prev, exists cs, chain (OA := OA) (OB := OB) (OT := OT) D fuel prev steps cs).
    { induction steps as [|s steps IH]; intros prev; [eexists; constructor|].
      destruct (rounds_end_live D fuel HD HL prev (fst s) (snd s)) as [[c ci] Ec].
      destruct (IH c) as [cs Hcs]. exists (c :: cs). econstructor; eauto. }
    destruct (Hc (rev (gp_steps proof)) f0) as [cs Hch].
    assert (Hr : snd (gipa_recursive_challenges_t D fuel com proof) = Ok (cfold com (rev (gp_steps proof)) cs, rev cs)).
    { rewrite erase_recursive. now apply recursive_challenges_chain. }
    assert (Hl : length (rev cs) = length (gp_steps proof)).
    { rewrite rev_length. apply chain_length in Hch. now rewrite rev_length in Hch. }
    unfold out, gipa_verify_t.
    replace (count_ones (length ka) =? 1) with true by (symmetry; apply Nat.eqb_eq, count_ones_pow2; eauto).
    replace (length ka =? length kb) with true by (symmetry; apply Nat.eqb_eq; congruence). cbn [negb orb].
    unfold tbind at 1. rewrite Hr. cbn [fst]. rewrite bill_app.
    set (ex := ck_exponents_t 0 (rev cs) [f1] [f1]).
    assert (Hex : exists ee, snd ex = Ok ee).
    { unfold ex. rewrite erase_exponents, ck_exponents_ok; eauto. apply Forall_rev. eapply chain_nonzero; eauto. }
    destruct Hex as [ee Hee].
    pose proof (exponents_lo price (fun _ => True) (rev cs) 0 [f1] [f1] ee Hee I) as Hlo. fold ex in Hlo.
    rewrite Hl in Hlo. cbn [Nat.pow Nat.add] in Hlo. replace (price OPush) with 1 in Hlo by reflexivity.
    assert (Hf : bill price (fst ex) <= bill price (fst (gipa_final_keys_t ka kb (rev cs)))).
    { unfold gipa_final_keys_t. replace (is_power_of_two (length ka)) with true by (symmetry; apply is_power_of_two_spec; eauto).
      unfold tbind at 1. cbn [lift rassert snd fst app]. apply bill_first. }
    match goal with |- _ <= _ + bill price (fst (tbind ?x ?f)) => pose proof (bill_first price x f) as Hg end.
    lia.
  Qed.

  (** no multiple of the sizes of the keys and of the proof bounds the work of the verifier *)
  Theorem C84_gipa_work_refuted j ka kb kt com :
    length ka = 2 ^ j -> length kb = 2 ^ j ->
    ~ exists C, forall proof : gipa_proof MA MB OA OB OT,
        number is_push (fst (gipa_verify_t LMC RMC IPC ip D fuel (ka, kb, kt) com proof))
        <= C * (length ka + length kb + length (gp_steps proof)).
  Proof using HD HL.
    intros Ha Hb [C HC].
    assert (HX : exists k, k <> j /\ C * (2 ^ j + 2 ^ j + k) < 2 * (2 ^ k - 1)).
    { clear. assert (Hq : forall m, m * m < 2 ^ (m + 4) /\ m < 2 ^ m).
      { induction m as [|m [IH1 IH2]]; [cbn; lia|]. replace (S m + 4) with (S (m + 4)) by lia. cbn [Nat.pow]. split; [|lia].
        assert (16 * 2 ^ m = 2 ^ (m + 4)) by (rewrite Nat.pow_add_r; cbn; lia). nia. }
      set (B := 2 ^ j + 2 ^ j). exists (C + B + j + 8 + (C + B + j + 8)).
      split; [lia|]. set (m := C + B + j + 8). pose proof (Hq m) as [H1 H2].
      assert (2 ^ (m + m) = 2 ^ m * 2 ^ m) by apply Nat.pow_add_r.
      assert (H3 : 2 ^ (m + 4) = 16 * 2 ^ m) by (rewrite Nat.pow_add_r; cbn; lia).
      assert (Hm : C * (B + (m + m)) <= m * (3 * m)) by (apply Nat.mul_le_mono; lia).
      assert (Hbig : 64 <= 2 ^ m). { replace 64 with (2 ^ 6) by reflexivity. apply Nat.pow_le_mono_r; lia. }
      nia. }
    destruct HX as [k [Hk HX]].
    specialize (HC (mk_gipa_proof (repeat ((c0, c0, c0), (c0, c0, c0)) k) (m0, m0))).
    destruct (C84_gipa_overlong j ka kb kt com (mk_gipa_proof (repeat ((c0, c0, c0), (c0, c0, c0)) k) (m0, m0)) Ha Hb) as [_ Hp].
    { cbn [gp_steps]. now rewrite repeat_length. }
    rewrite Hp in HC. cbn [gp_steps] in HC. rewrite repeat_length, Ha, Hb in HC. lia.
  Qed.


  (** MISSING for the full statement: proofs with another number of rounds (refuted above).  With the right
      number, and whenever an answer is given, the vectors have the length of the keys. *)
  Theorem C84_gipa_work_partial ka kb kt com (proof : gipa_proof MA MB OA OB OT) :
    let out := gipa_verify_t LMC RMC IPC ip D fuel (ka, kb, kt) com proof in
    (2 ^ length (gp_steps proof) = length ka \/ exists ok, snd out = Ok ok) ->
    number is_push (fst out) <= 2 * (length ka - 1).
  Proof using.
    intros out H. assert (Hk : 2 ^ length (gp_steps proof) = length ka).
    { destruct H as [H|[ok H]]; [exact H|]. unfold out in H. rewrite erase_gipa_verify in H.
      apply C11_answer_means_log_rounds in H as [H _]. now symmetry. }
    rewrite number_bill. etransitivity; [apply gipa_hi|].
    rewrite Hk. unfold gipa_bill, rounds_bill, base_bill. cbn. lia.
  Qed.
End Overlong.
Print Assumptions C84_gipa_work_refuted.
Print Assumptions C84_gipa_overlong.
Print Assumptions C84_gipa_work_partial.

(** ** Runs with 4 values *)
(** a trace as numbers: digest calls, pushes, scalings, scaled commitments, pairings, committed messages,
    committed products, multiplied elements, multi-exponentiations *)
Definition summary (t : list op) : list nat :=
  map (fun w => bill w t)
    [fun o => match o with OHash => 1 | _ => 0 end; fun o => match o with OPush => 1 | _ => 0 end;
     fun o => match o with OScale => 1 | _ => 0 end; fun o => match o with OScaleCom => 1 | _ => 0 end;
     fun o => match o with OPairing => 1 | _ => 0 end; fun o => match o with OCommit n => n | _ => 0 end;
     fun o => match o with OCommitT n => n | _ => 0 end; fun o => match o with OProduct n => n | _ => 0 end;
     fun o => match o with OMsm n => 1 | _ => 0 end].
Definition ex_gprove_t := gipa_prove_with_aux_t (ex_L ex_env) (ex_R ex_env) ex_T (pairing_ip ZPair ex_env) toy_digest 5.
Definition ex_gverify_t := gipa_verify_t (ex_L ex_env1) (ex_R ex_env1) ex_T (pairing_ip ZPair ex_env1) toy_digest 5.

Example C83_gipa_example :
  summary (fst (ex_gprove_t (PropsGipa.ex_a, PropsGipa.ex_b) (ex_ka, ex_kb, [tt]))) = [2; 0; 12; 0; 0; 12; 4; 6; 0] /\
  (do (proof, _) <- snd (ex_gprove_t (PropsGipa.ex_a, PropsGipa.ex_b) (ex_ka, ex_kb, [tt]));
   let out := ex_gverify_t (ex_ka, ex_kb, tt) ex_com proof in
   do ok <- snd out; Ok (ok, summary (fst out))) = Ok (true, [2; 6; 8; 12; 0; 2; 1; 1; 0]).
Proof. split; vm_compute; reflexivity. Qed.

Example C83_tipa_example :
  (do s <- ex_srs 4; do v <- get_verifier_key s;
   let '(ka, kb) := get_commitment_keys s in
   do p <- ex_tprove s (PropsGipa.ex_a, PropsGipa.ex_b) (ka, kb, tt) f1;
   let out := tipa_verify_with_srs_shift_t (P := ZPair) (ex_L ex_env1) (ex_R ex_env1) ex_T
     (pairing_ip ZPair ex_env1) toy_digest 9 v tt (ex_tcom ka kb PropsGipa.ex_a) p f1 in
   do ok <- snd out; Ok (ok, skipn 1 (summary (fst out)))) = Ok (true, [0; 4; 12; 4; 2; 1; 1; 0]).
Proof. vm_compute. reflexivity. Qed.

Example C83_groth16_example :
  (do pv <- ex_agg toy_digest ex_pfs;
   let out := g16_verify_t ZPair ex_env1 toy_digest 9 ex_rand ex_rand (snd pv) ex_vk ex_inputs (fst pv) in
   do ok <- snd out; Ok (ok, skipn 1 (summary (fst out)))) = Ok (true, [2; 9; 12; 9; 3; 2; 4; 0]).
Proof. vm_compute. reflexivity. Qed.

Example C83_sipp_example :
  summary (fst (sipp_prove_t ZPair ex_env toy_stream toy_digest PropsSipp.ex_a PropsSipp.ex_b ex_r (zq 220))) = [3; 0; 16; 0; 0; 0; 0; 6; 0] /\
  (do zs <- sipp_prove ZPair ex_env toy_stream toy_digest PropsSipp.ex_a PropsSipp.ex_b ex_r (zq 220);
   let out := sipp_verify_t ZPair ex_env1 toy_stream toy_digest PropsSipp.ex_a PropsSipp.ex_b ex_r (zq 220) zs in
   do ok <- snd out; Ok (ok, summary (fst out))) = Ok (true, [3; 0; 0; 4; 1; 0; 0; 0; 2]).
Proof. split; vm_compute; reflexivity. Qed.

(** keys of length 4, a proof of 8 rounds: 510 elements are computed before the panic *)
Example C84_example :
  let proof := mk_gipa_proof (MA := ZM) (MB := ZM) (repeat ((zq 1, zq 1, [zq 1]), (zq 1, zq 1, [zq 1])) 8 : list (com3 (mod_carrier ZM) (mod_carrier ZM) (identity_output ZM) * com3 (mod_carrier ZM) (mod_carrier ZM) (identity_output ZM))) (zq 1, zq 1) in
  let out := gipa_verify_t (ex_L ex_env1) (ex_R ex_env1) ex_T (pairing_ip ZPair ex_env1) one_digest 1 (ex_ka, ex_kb, tt) ex_com proof in
  snd out = Panic /\ number is_push (fst out) = 510.
Proof. vm_compute. split; reflexivity. Qed.

Example C83_opening_example :
  (do (s, _) <- bpc_setup ZPair ex_scalars 5%Z 3 1;
   do v <- get_verifier_key (fst s);
   do (com, coms) <- bpc_commit ZPair ex_env ex_rand s [zl [3; 4]; zl [5; 6]; []]%Z;
   do proof <- bpc_open ZPair ex_env toy_digest 9 ex_rand s [zl [3; 4]; zl [5; 6]; []]%Z coms (zq 2, zq 10);
   let out := bpc_verify_t ZPair ex_env1 toy_digest 9 ex_rand v com (zq 2, zq 10) (zq 173) proof in
   do ok <- snd out; Ok (ok, skipn 1 (summary (fst out)))) = Ok (true, [0; 4; 12; 4; 1; 1; 1; 0]).
Proof. vm_compute. reflexivity. Qed.
Example C83_transparent_example :
  (do (ck, _) <- tbpc_setup ZPair ex_env ex_rand ex_rand 5%Z 3 1;
   do (com, coms) <- tbpc_commit ZPair ex_env ex_rand ex_rand ck [zl [3; 4]; zl [5; 6]; []]%Z;
   do proof <- tbpc_open ZPair ex_env toy_digest 9 ex_rand ex_rand ck [zl [3; 4]; zl [5; 6]; []]%Z coms (zq 2, zq 10);
   let out := tbpc_verify_t ZPair ex_env1 toy_digest 9 ex_rand ex_rand ck com (zq 2, zq 10) (zq 173) proof in
   do ok <- snd out; Ok (ok, skipn 1 (summary (fst out)))) = Ok (true, [8; 12; 18; 0; 6; 4; 4; 0]).
Proof. vm_compute. reflexivity. Qed.

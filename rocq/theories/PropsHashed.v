(** Property C104: which byte strings are hashed, and what each of them is for. *)
Require Import List Arith NArith ZArith Lia Bool.
Import ListNotations.
Require Import Verif.Outcome Verif.Algebra Verif.Zp Verif.Rust Verif.InnerProducts Verif.Commitments
  Verif.Gipa Verif.Poly Verif.Tipa Verif.Ssm Verif.Floats Verif.PolyCommit Verif.Transparent Verif.Groth16 Verif.Spec Verif.ListFacts
  Verif.RustFacts Verif.SerFacts Verif.PropsBase Verif.PropsGipa Verif.PropsTipa Verif.PropsGroth.

(** ** Specification *)
(** [f] gives the same for all hash functions that agree on Q *)
Definition hashes_only {A} (Q : bytes -> Prop) (f : (bytes -> bytes) -> A) : Prop :=
  forall D D' : bytes -> bytes, (forall q, Q q -> D q = D' q) -> f D = f D'.
(** a returned value p is the same for all hash functions that agree on Q p *)
Definition result_hashes_only {A} (Q : A -> bytes -> Prop) (f : (bytes -> bytes) -> res A) : Prop :=
  forall (D D' : bytes -> bytes) p, f D = Ok p -> (forall q, Q p q -> D q = D' q) -> f D' = Ok p.

(** the bytes of one triple of commitments *)
Definition triple_bytes {K} {OA OB OT : carrier K} (c : com3 OA OB OT) : bytes :=
  let '(a, b, t) := c in cser a ++ cser b ++ cser t.
(** input of a round: nonce, an earlier challenge (or zero), the two triples of one round *)
Definition round_input {K : field} {OA OB OT : carrier K} (steps : list (com3 OA OB OT * com3 OA OB OT)) (q : bytes) : Prop :=
  exists (n : nat) (prev : K) c1 c2, In (c1, c2) steps /\ q = usize_be n ++ fser prev ++ triple_bytes c1 ++ triple_bytes c2.
(** input of the point at which the final keys are opened: nonce, a challenge, the final keys *)
Definition two_key_input {P : pairing} (keys : pG2 P * pG1 P) (q : bytes) : Prop :=
  exists (n : nat) (c : pK P), q = usize_be n ++ fser c ++ mser (fst keys) ++ mser (snd keys).
Definition one_key_input {P : pairing} (key : pG2 P) (q : bytes) : Prop :=
  exists (n : nat) (c : pK P), q = usize_be n ++ fser c ++ mser key.
(** input of the combination of the Groth16 proofs: nonce and the three commitments *)
Definition combination_input {P : pairing} (ca cb cc : pGT P) (q : bytes) : Prop :=
  exists n : nat, q = usize_be n ++ mser ca ++ mser cb ++ mser cc.

(** the inputs hashed for one proof *)
Definition gipa_inputs {K} {MA MB : module K} {OA OB OT : carrier K} (p : gipa_proof MA MB OA OB OT) : bytes -> Prop :=
  round_input (gp_steps p).
Definition tipa_inputs {P : pairing} {MA MB : module (pK P)} {OA OB OT : carrier (pK P)} (p : tipa_proof P MA MB OA OB OT) (q : bytes) : Prop :=
  round_input (gp_steps (tp_gipa p)) q \/ two_key_input (tp_final_ck p) q.
Definition tssm_inputs {P : pairing} {MA : module (pK P)} {OA OT : carrier (pK P)} (p : tssm_proof P MA OA OT) (q : bytes) : Prop :=
  round_input (gp_steps (ts_gipa p)) q \/ one_key_input (ts_final_ck p) q.
Definition agg_inputs {P : pairing} (p : agg_proof P) (q : bytes) : Prop :=
  combination_input (ag_com_a p) (ag_com_b p) (ag_com_c p) q \/ tipa_inputs (ag_tipa_ab p) q \/ tssm_inputs (ag_tipa_c p) q.
Definition t_inputs {P : pairing} (p : t_opening_proof P) (q : bytes) : Prop :=
  gipa_inputs (to_second p) q \/ gipa_inputs (to_first p) q.

(** ** Lemmas *)
Lemma hashes_weaken {A} (Q Q' : bytes -> Prop) (f : (bytes -> bytes) -> A) : (forall q, Q q -> Q' q) -> hashes_only Q f -> hashes_only Q' f.
Proof. intros H Hf D D' HD. apply Hf. auto. Qed.
Lemma hashes_bind {A B} Q (x : (bytes -> bytes) -> res A) (g : (bytes -> bytes) -> A -> res B) :
  hashes_only Q x -> (forall a, hashes_only Q (fun D => g D a)) -> hashes_only Q (fun D => rbind (x D) (g D)).
Proof. intros Hx Hg D D' HD. rewrite (Hx D D' HD). destruct (x D'); cbn [rbind]; auto. apply Hg, HD. Qed.
Lemma hashes_after {A B} Q (x : res A) (g : (bytes -> bytes) -> A -> res B) :
  (forall a, hashes_only Q (fun D => g D a)) -> hashes_only Q (fun D => rbind x (g D)).
Proof. intros Hg D D' HD. destruct x; cbn [rbind]; auto. apply Hg, HD. Qed.
Lemma hashes_nothing {A} Q (x : A) : hashes_only Q (fun _ => x).
Proof. intros D D' _. reflexivity. Qed.

Lemma gipa_hash_bytes {K : field} {OA OB OT : carrier K} n (prev : K) (c1 c2 : com3 OA OB OT) :
  gipa_hash_input n prev c1 c2 = usize_be n ++ fser prev ++ triple_bytes c1 ++ triple_bytes c2.
Proof. destruct c1 as [[? ?] ?], c2 as [[? ?] ?]. unfold gipa_hash_input, triple_bytes. now rewrite <- !app_assoc. Qed.

Lemma challenge_hashes {K : field} {OA OB OT : carrier K} (steps : list (com3 OA OB OT * com3 OA OB OT)) c1 c2 : In (c1, c2) steps ->
  forall fuel n (prev : K), hashes_only (round_input steps) (fun D => gipa_challenge D fuel n prev c1 c2).
Proof.
  intros Hi. induction fuel as [|fuel IH]; intros n prev D D' HD; cbn [gipa_challenge]; [reflexivity|].
  rewrite (HD (gipa_hash_input n prev c1 c2)); [|rewrite gipa_hash_bytes; exists n, prev, c1, c2; auto].
  destruct (slice_to (D' (gipa_hash_input n prev c1 c2)) 16); cbn [rbind]; auto. cbv zeta. destruct (finverse _); auto. apply IH, HD.
Qed.
Lemma rand_hashes {K : field} payload : forall fuel n, hashes_only (fun q => exists i, q = usize_be i ++ payload) (fun D => rand_challenge (K := K) D fuel n payload).
Proof.
  induction fuel as [|fuel IH]; intros n D D' HD; cbn [rand_challenge]; [reflexivity|].
  rewrite (HD (usize_be n ++ payload)); [|eauto]. destruct (f_rand (D' (usize_be n ++ payload))); auto. apply IH, HD.
Qed.

Section Loops.
  Context {R : Type} {K : field} {MA MB MT KA KB KT : module K} {OA OB OT : carrier K}.
  Variables (LMC : dhc R MA KA OA) (RMC : dhc R MB KB OB) (IPC : dhc R MT KT OT) (ip : list MA -> list MB -> res MT).

  Lemma challenges_loop_hashes (all steps : list (com3 OA OB OT * com3 OA OB OT)) : incl steps all -> forall fuel com tr,
    hashes_only (round_input all) (fun D => gipa_challenges_loop D fuel com tr steps).
  Proof using.
    clear. induction steps as [|[c1 c2] steps IH]; intros Hi fuel com tr; cbn [gipa_challenges_loop]; [apply hashes_nothing|].
    apply hashes_bind; [apply challenge_hashes, Hi; now left|]. intros [c ci]. destruct com as [[? ?] ?], c1 as [[? ?] ?], c2 as [[? ?] ?].
    apply IH. intros x Hx. apply Hi. now right.
  Qed.
  Lemma recursive_hashes fuel com (proof : gipa_proof MA MB OA OB OT) :
    hashes_only (round_input (gp_steps proof)) (fun D => gipa_recursive_challenges D fuel com proof).
  Proof using.
    clear. unfold gipa_recursive_challenges. apply hashes_bind; [|intros [? ?]; apply hashes_nothing].
    apply challenges_loop_hashes. intros x Hx. now apply in_rev.
  Qed.

  Lemma prove_loop_steps D fuel n : forall ma mb ka kb kt steps tr m k st t,
    gipa_prove_loop LMC RMC IPC ip D fuel n ma mb ka kb kt steps tr = Ok (m, k, st, t) -> incl steps st.
  Proof using.
    clear. induction n as [|n IH]; intros ma mb ka kb kt steps tr m k st t; cbn [gipa_prove_loop]; destruct (length ma =? 1).
    1,3: intros H; repeat (apply rbind_ok in H as [? [_ H]]); injection H as _ _ <- _; apply incl_refl.
    - discriminate.
    - cbv zeta. intros H. do 10 (apply rbind_ok in H as [? [_ H]]). apply rbind_ok in H as [[c ci] [_ H]].
      apply IH in H. intros y Hy. apply H. apply in_or_app. now left.
  Qed.
  Lemma prove_loop_hashes fuel n : forall ma mb ka kb kt steps tr,
    result_hashes_only (fun r => round_input (snd (fst r))) (fun D => gipa_prove_loop LMC RMC IPC ip D fuel n ma mb ka kb kt steps tr).
  Proof using.
    clear. induction n as [|n IH]; intros ma mb ka kb kt steps tr D D' [[[m k] st] t]; cbn [gipa_prove_loop fst snd]; destruct (length ma =? 1).
    1,3: intros H _; exact H.
    1: discriminate.
    cbv zeta. intros H HD. do 10 (apply rbind_ok in H as [? [Hx H]]; rewrite Hx; cbn [rbind]; clear Hx).
    apply rbind_ok in H as [[c ci] [Hc H]].
    pose proof (prove_loop_steps _ _ _ _ _ _ _ _ _ _ _ _ _ _ H) as Hi.
    rewrite <- (challenge_hashes st _ _ (Hi _ ltac:(apply in_or_app; right; now left)) fuel 0 _ D D' HD), Hc. cbn [rbind].
    exact (IH _ _ _ _ _ _ _ D D' _ H HD).
  Qed.
  Lemma prove_aux_hashes fuel values ck :
    result_hashes_only (fun r => gipa_inputs (fst r)) (fun D => gipa_prove_with_aux LMC RMC IPC ip D fuel values ck).
  Proof using.
    clear. destruct values as [ma mb], ck as [[ka kb] kt]. intros D D' [p aux] H HD. unfold gipa_prove_with_aux in *. cbn [fst] in HD.
    apply rbind_ok in H as [x [Hx H]]. rewrite Hx. cbn [rbind]. apply rbind_ok in H as [[[[m k] st] t] [Hl H]].
    rewrite (prove_loop_hashes fuel _ _ _ _ _ _ _ _ D D' _ Hl); [exact H|]. cbn [fst snd]. intros q [n [prev [c1 [c2 [Hi Hq]]]]].
    injection H as <- _. apply HD. exists n, prev, c1, c2. split; [now apply -> in_rev|exact Hq].
  Qed.
End Loops.
Arguments prove_aux_hashes {R K MA MB MT KA KB KT OA OB OT}.

(** ** Theorems: only these inputs are hashed *)
Section Gipa.
  Context {R : Type} {K : field} {MA MB MT KA KB KT : module K} {OA OB OT : carrier K}.
  Variables (LMC : dhc R MA KA OA) (RMC : dhc R MB KB OB) (IPC : dhc R MT KT OT) (ip : list MA -> list MB -> res MT).
  Theorem C104_gipa_verify fuel ck com (proof : gipa_proof MA MB OA OB OT) :
    hashes_only (gipa_inputs proof) (fun D => gipa_verify LMC RMC IPC ip D fuel ck com proof).
  Proof using.
    clear. destruct ck as [[ka kb] kt]. unfold gipa_verify. destruct (_ || _); [apply hashes_nothing|].
    apply hashes_bind; [apply recursive_hashes|]. intros [base tr]. apply hashes_nothing.
  Qed.
  Theorem C104_gipa_prove fuel values ck com :
    result_hashes_only gipa_inputs (fun D => gipa_prove LMC RMC IPC ip D fuel values ck com).
  Proof using.
    clear. destruct values as [[a b] t], ck as [[ka kb] kt], com as [[ca cb] ct]. intros D D' p H HD. unfold gipa_prove in *.
    apply rbind_ok in H as [v [Hv H]]. rewrite Hv. cbn [rbind]. destruct (negb (meqb v t)); [discriminate|].
    destruct (negb (count_ones (length a) =? 1)); [discriminate|]. apply rbind_ok in H as [ok [Ho H]]. rewrite Ho. cbn [rbind].
    destruct (negb ok); [discriminate|]. apply rbind_ok in H as [[pf aux] [Hp H]]. injection H as ->.
    now rewrite (prove_aux_hashes LMC RMC IPC ip fuel _ _ D D' _ Hp HD).
  Qed.
End Gipa.
Section Gssm.
  Context {R : Type} {K : field} {MA MT KA KT : module K} {OA OT : carrier K}.
  Variables (LMC : dhc R MA KA OA) (IPC : dhc R MT KT OT) (ip : list MA -> list (fmod K) -> res MT) (E : penv).
  Theorem C104_gssm_verify fuel ck com b (proof : gssm_proof MA OA OT) :
    hashes_only (gipa_inputs proof) (fun D => gssm_verify LMC IPC ip D fuel E ck com b proof).
  Proof using.
    clear. destruct ck as [ka kt]. unfold gssm_verify. apply hashes_bind; [apply recursive_hashes|]. intros [base tr]. apply hashes_nothing.
  Qed.
  Theorem C104_gssm_prove fuel values ck : result_hashes_only gipa_inputs (fun D => gssm_prove LMC IPC ip D fuel values ck).
  Proof using.
    clear. destruct ck as [ka kt]. intros D D' p H HD. unfold gssm_prove in *. apply rbind_ok in H as [[pf aux] [Hp H]]. injection H as ->.
    now rewrite (prove_aux_hashes LMC (ssm_placeholder K) IPC ip fuel _ _ D D' _ Hp HD).
  Qed.
End Gssm.
Section TipaHashed.
  Context {R : Type} {P : pairing} {MA MB MT KT : module (pK P)} {OA OB OT : carrier (pK P)}.
  Variables (LMC : dhc R MA (pG2 P) OA) (RMC : dhc R MB (pG1 P) OB) (IPC : dhc R MT KT OT) (ip : list MA -> list MB -> res MT).
  Theorem C104_tipa_verify fuel v kt com proof r :
    hashes_only (tipa_inputs proof) (fun D => tipa_verify_with_srs_shift LMC RMC IPC ip D fuel v kt com proof r).
  Proof using.
    clear. unfold tipa_verify_with_srs_shift. apply hashes_bind; [eapply hashes_weaken; [|apply recursive_hashes]; intros q H; now left|].
    intros [base tr]. apply hashes_after. intros ti. destruct (tp_final_ck proof) as [fa fb] eqn:Ef, (tp_final_ck_proof proof) as [pa pb].
    apply hashes_after. intros t0. apply hashes_bind; [|intros c; apply hashes_nothing].
    eapply hashes_weaken; [|apply rand_hashes]. intros q [i ->]. right. rewrite Ef. exists i, t0. reflexivity.
  Qed.
  Theorem C104_tipa_prove fuel s values ck r :
    result_hashes_only tipa_inputs (fun D => tipa_prove_with_srs_shift LMC RMC IPC ip D fuel s values ck r).
  Proof using.
    clear. destruct ck as [[ka kb] kt]. intros D D' p H HD. unfold tipa_prove_with_srs_shift in *.
    apply rbind_ok in H as [[pf aux] [Hp H]]. destruct (ga_ck_base aux) as [fa fb] eqn:Eb. cbv zeta in H.
    apply rbind_ok in H as [ti [Ht H]]. apply rbind_ok in H as [ri [Hr H]]. apply rbind_ok in H as [t0 [H0 H]].
    apply rbind_ok in H as [c [Hc H]]. apply rbind_ok in H as [oa [Ha H]]. apply rbind_ok in H as [ob [Hb H]].
    assert (Ep : tp_gipa p = pf /\ tp_final_ck p = (fa, fb)) by (injection H as <-; auto). destruct Ep as [Ep Ek].
    rewrite (prove_aux_hashes LMC RMC IPC ip fuel _ _ D D' _ Hp). 2: { cbn [fst]. intros q Hq. apply HD. left. now rewrite Ep. }
    cbn [rbind]. rewrite Eb. cbv zeta. rewrite Ht. cbn [rbind]. rewrite Hr. cbn [rbind]. rewrite H0. cbn [rbind].
    rewrite <- (rand_hashes _ fuel 0 D D'). 2: { intros q [i ->]. apply HD. right. rewrite Ek. now exists i, t0. }
    rewrite Hc. cbn [rbind]. rewrite Ha. cbn [rbind]. rewrite Hb. exact H.
  Qed.
End TipaHashed.
Section TssmHashed.
  Context {R : Type} {P : pairing} {MA MT KT : module (pK P)} {OA OT : carrier (pK P)}.
  Variables (LMC : dhc R MA (pG2 P) OA) (IPC : dhc R MT KT OT) (ip : list MA -> list (fmod (pK P)) -> res MT) (E : penv).
  Theorem C104_tssm_verify fuel v kt com b proof :
    hashes_only (tssm_inputs proof) (fun D => tssm_verify LMC IPC ip D fuel E v kt com b proof).
  Proof using.
    clear. unfold tssm_verify. apply hashes_bind; [eapply hashes_weaken; [|apply recursive_hashes]; intros q H; now left|].
    intros [base tr]. apply hashes_after. intros ti. cbv zeta. apply hashes_after. intros t0. apply hashes_bind; [|intros c; apply hashes_nothing].
    eapply hashes_weaken; [|apply rand_hashes]. intros q [i ->]. right. exists i, t0. reflexivity.
  Qed.
  Theorem C104_tssm_prove fuel s values ck : result_hashes_only tssm_inputs (fun D => tssm_prove LMC IPC ip D fuel s values ck).
  Proof using.
    clear. destruct ck as [ka kt]. intros D D' p H HD. unfold tssm_prove in *.
    apply rbind_ok in H as [[pf aux] [Hp H]]. destruct (ga_ck_base aux) as [fa fb] eqn:Eb. cbv zeta in H.
    apply rbind_ok in H as [ti [Ht H]]. apply rbind_ok in H as [t0 [H0 H]].
    apply rbind_ok in H as [c [Hc H]]. apply rbind_ok in H as [oa [Ha H]].
    assert (Ep : ts_gipa p = pf /\ ts_final_ck p = fa) by (injection H as <-; auto). destruct Ep as [Ep Ek].
    rewrite (prove_aux_hashes LMC (ssm_placeholder (pK P)) IPC ip fuel _ _ D D' _ Hp). 2: { cbn [fst]. intros q Hq. apply HD. left. now rewrite Ep. }
    cbn [rbind]. rewrite Eb. cbv zeta. rewrite Ht. cbn [rbind]. rewrite H0. cbn [rbind].
    rewrite <- (rand_hashes _ fuel 0 D D'). 2: { intros q [i ->]. apply HD. right. rewrite Ek. now exists i, t0. }
    rewrite Hc. cbn [rbind]. rewrite Ha. exact H.
  Qed.
End TssmHashed.
Section Applications.
  Context {R : Type} (P : pairing) (E : penv) (r1 : sampler R (pG1 P)) (r2 : sampler R (pG2 P)).
  Notation K := (pK P).
  (** polynomial commitments: neither the commitment, nor the point, nor the value, nor the commitment to the partial evaluation *)
  Theorem C104_poly_verify fuel v md com (z eval : K) proof :
    hashes_only (tssm_inputs (op_ip proof)) (fun D => upc_verify P E D fuel r2 v md com z eval proof) /\
    forall point, hashes_only (tssm_inputs (op_ip proof)) (fun D => bpc_verify P E D fuel r2 v com point eval proof).
  Proof using.
    assert (H : forall point, hashes_only (tssm_inputs (op_ip proof)) (fun D => bpc_verify P E D fuel r2 v com point eval proof)).
    { intros [x y]. unfold bpc_verify. apply hashes_bind; [apply C104_tssm_verify|]. intros b. apply hashes_nothing. }
    split; [|exact H]. unfold upc_verify. apply hashes_after. intros [xd yd]. apply H.
  Qed.
  Theorem C104_transparent_verify fuel ck com (z eval : K) proof :
    hashes_only (t_inputs proof) (fun D => tupc_verify P E D fuel r1 r2 ck com z eval proof) /\
    forall point, hashes_only (t_inputs proof) (fun D => tbpc_verify P E D fuel r1 r2 ck com point eval proof).
  Proof using.
    assert (H : forall point, hashes_only (t_inputs proof) (fun D => tbpc_verify P E D fuel r1 r2 ck com point eval proof)).
    { intros [x y]. destruct ck as [k1 k2]. unfold tbpc_verify.
      apply hashes_bind; [eapply hashes_weaken; [|apply C104_gssm_verify]; intros q Hq; now left|]. intros b.
      apply hashes_bind; [eapply hashes_weaken; [|apply C104_gssm_verify]; intros q Hq; now right|]. intros b'. apply hashes_nothing. }
    split; [|exact H]. unfold tupc_verify. apply hashes_after. intros [xd yd]. apply H.
  Qed.
  (** Groth16 aggregation: neither the verifying key, nor the public inputs, nor ip_ab, nor agg_c *)
  Theorem C104_groth16_verify fuel v vk inputs proof :
    hashes_only (agg_inputs proof) (fun D => g16_verify P E D fuel r1 r2 v vk inputs proof).
  Proof using.
    unfold g16_verify. apply hashes_bind; [eapply hashes_weaken; [|apply rand_hashes]; intros q [i ->]; left; now exists i|]. intros r.
    apply hashes_bind; [eapply hashes_weaken; [|apply C104_tipa_verify]; intros q Hq; right; now left|]. intros ab.
    apply hashes_bind; [eapply hashes_weaken; [|apply C104_tssm_verify]; intros q Hq; right; now right|]. intros c. apply hashes_nothing.
  Qed.
  Theorem C104_groth16_aggregate fuel s proofs :
    result_hashes_only agg_inputs (fun D => g16_aggregate P E D fuel r1 r2 s proofs).
  Proof using.
    intros D D' p H HD. unfold g16_aggregate in *. cbv zeta in *. destruct (get_commitment_keys s) as [k1 k2].
    apply rbind_ok in H as [ca [Ea H]]. apply rbind_ok in H as [cb [Eb H]]. apply rbind_ok in H as [cc [Ec H]].
    apply rbind_ok in H as [r [Er H]]. apply rbind_ok in H as [rv [Erv H]]. apply rbind_ok in H as [iab [Ei H]].
    apply rbind_ok in H as [agc [Eg H]]. apply rbind_ok in H as [k1r [Ek H]]. apply rbind_ok in H as [ca' [Ea' H]].
    apply rbind_ok in H as [u [Eu H]]. apply rbind_ok in H as [pab [Ep H]]. apply rbind_ok in H as [pc [Eq H]].
    injection H as <-. unfold agg_inputs in HD. cbn [ag_com_a ag_com_b ag_com_c ag_tipa_ab ag_tipa_c] in HD.
    rewrite Ea. cbn [rbind]. rewrite Eb. cbn [rbind]. rewrite Ec. cbn [rbind].
    rewrite <- (rand_hashes _ fuel 0 D D'). 2: { intros q [i ->]. apply HD. left. now exists i. }
    rewrite Er. cbn [rbind]. rewrite Erv. cbn [rbind]. rewrite Ei. cbn [rbind]. rewrite Eg. cbn [rbind]. rewrite Ek. cbn [rbind].
    rewrite Ea'. cbn [rbind]. rewrite Eu. cbn [rbind].
    rewrite (C104_tipa_prove _ _ _ _ fuel s _ _ r D D' _ Ep). 2: { intros q Hq. apply HD. right. now left. }
    cbn [rbind]. rewrite (C104_tssm_prove _ _ _ fuel s _ _ D D' _ Eq). 2: { intros q Hq. apply HD. right. now right. }
    reflexivity.
  Qed.
End Applications.

(** ** Theorems: a hash input determines what it is for *)
(** what the hash is used for in the Groth16 aggregation (the polynomial commitments use the last two kinds) *)
Inductive hash_use (P : pairing) : Type :=
| Combination (com_a com_b com_c : pGT P)
| PairingRound (prev : pK P) (com_1 com_2 : com3 (mod_carrier (pGT P)) (mod_carrier (pGT P)) (identity_output (pGT P)))
| TwoKeyPoint (challenge : pK P) (ck_a : pG2 P) (ck_b : pG1 P)
| MultiexpRound (prev : pK P) (com_1 com_2 : com3 (mod_carrier (pGT P)) (mod_carrier (fmod (pK P))) (identity_output (pG1 P)))
| OneKeyPoint (challenge : pK P) (ck : pG2 P).
Arguments Combination {P}.
Arguments PairingRound {P}.
Arguments TwoKeyPoint {P}.
Arguments MultiexpRound {P}.
Arguments OneKeyPoint {P}.
Definition use_bytes {P} (u : hash_use P) : bytes :=
  match u with
  | Combination a b c => mser a ++ mser b ++ mser c
  | PairingRound x c1 c2 => fser x ++ triple_bytes c1 ++ triple_bytes c2
  | TwoKeyPoint x ka kb => fser x ++ mser ka ++ mser kb
  | MultiexpRound x c1 c2 => fser x ++ triple_bytes c1 ++ triple_bytes c2
  | OneKeyPoint x k => fser x ++ mser k
  end.
(** vectors of fewer than 2^64 elements *)
Definition use_fits {P} (u : hash_use P) : Prop :=
  match u with
  | PairingRound _ c1 c2 => u64_bound (length (snd c1)) /\ u64_bound (length (snd c2))
  | MultiexpRound _ c1 c2 => u64_bound (length (snd c1)) /\ u64_bound (length (snd c2))
  | _ => True
  end.

(** injective encodings of fixed sizes *)
Definition coded {A} (ser : A -> bytes) (n : nat) : Prop := (forall a, length (ser a) = n) /\ (forall a b, ser a = ser b -> a = b).
Definition coded_pairing (P : pairing) (sF s1 s2 sT : nat) : Prop :=
  coded (@fser (pK P)) sF /\ coded (@mser _ (pG1 P)) s1 /\ coded (@mser _ (pG2 P)) s2 /\ coded (@mser _ (pGT P)) sT.
(** the lengths of the five kinds of input are different; vectors of k (l) elements in all *)
Definition sizes_apart (sF s1 s2 sT : nat) : Prop := s1 <> 0 /\ forall k l : nat,
  let combination := 3 * sT in
  let pairing_round := sF + 4 * sT + 16 + k * sT in
  let two_keys := sF + s2 + s1 in
  let multiexp_round := 3 * sF + 2 * sT + 16 + l * s1 in
  let one_key := sF + s2 in
  combination <> two_keys /\ combination <> multiexp_round /\ combination <> one_key /\
  pairing_round <> two_keys /\ pairing_round <> multiexp_round /\ pairing_round <> one_key /\
  two_keys <> multiexp_round /\ multiexp_round <> one_key.

Lemma coded_prefix {A} (ser : A -> bytes) n : coded ser n -> prefix_free ser.
Proof. intros [H1 H2]. exact (fixed_length_prefix_free ser n H1 H2). Qed.
Lemma coded_list {A} (ser : A -> bytes) n l : coded ser n -> length (ser_list ser l) = 8 + length l * n.
Proof.
  intros [H _]. unfold ser_list. rewrite app_length, u64_le_length. f_equal. induction l as [|a l IH]; [reflexivity|].
  cbn [flat_map length]. rewrite app_length, H, IH. lia.
Qed.
Lemma triple_prefix {K} {OA OB : carrier K} {T : module K} (c1 c2 c1' c2' : com3 OA OB (identity_output T)) :
  prefix_free (@cser K OA) -> prefix_free (@cser K OB) -> prefix_free (@mser K T) ->
  u64_bound (length (snd c1)) -> u64_bound (length (snd c2)) -> u64_bound (length (snd c1')) -> u64_bound (length (snd c2')) ->
  triple_bytes c1 ++ triple_bytes c2 = triple_bytes c1' ++ triple_bytes c2' -> c1 = c1' /\ c2 = c2'.
Proof.
  destruct c1 as [[a1 b1] t1], c2 as [[a2 b2] t2], c1' as [[a1' b1'] t1'], c2' as [[a2' b2'] t2']. cbn [snd].
  intros HA HB HT L1 L2 L1' L2' E. unfold triple_bytes in E. rewrite <- !app_assoc in E.
  apply HA in E as [-> E]. apply HB in E as [-> E]. apply (ser_list_prefix mser HT) in E as [-> E]; auto.
  apply HA in E as [-> E]. apply HB in E as [-> E].
  rewrite <- (app_nil_r (cser t2)), <- (app_nil_r (cser t2')) in E. apply (ser_list_prefix mser HT) in E as [-> E]; auto.
Qed.

Section Separation.
  Context (P : pairing) (sF s1 s2 sT : nat).
  Hypotheses (HC : coded_pairing P sF s1 s2 sT) (HS : sizes_apart sF s1 s2 sT).
  Notation K := (pK P).
  Lemma round_length (x : K) (c1 c2 : com3 (mod_carrier (pGT P)) (mod_carrier (pGT P)) (identity_output (pGT P))) :
    exists k, length (use_bytes (PairingRound x c1 c2)) = sF + 4 * sT + 16 + k * sT.
  Proof using HC.
    destruct HC as [F [_ [_ T]]]. exists (length (snd c1) + length (snd c2)). destruct c1 as [[a1 b1] t1], c2 as [[a2 b2] t2].
    cbn [use_bytes triple_bytes snd]. rewrite !app_length. cbn [cser mod_carrier identity_output].
    rewrite !(coded_list mser sT) by exact T. rewrite (proj1 F), !(proj1 T). lia.
  Qed.
  Lemma mround_length (x : K) (c1 c2 : com3 (mod_carrier (pGT P)) (mod_carrier (fmod K)) (identity_output (pG1 P))) :
    exists l, length (use_bytes (MultiexpRound x c1 c2)) = 3 * sF + 2 * sT + 16 + l * s1.
  Proof using HC.
    destruct HC as [F [H1 [_ T]]]. exists (length (snd c1) + length (snd c2)). destruct c1 as [[a1 b1] t1], c2 as [[a2 b2] t2].
    cbn [use_bytes triple_bytes snd]. rewrite !app_length. cbn [cser mod_carrier identity_output fmod mser].
    rewrite !(coded_list mser s1) by exact H1. rewrite !(proj1 F), !(proj1 T). lia.
  Qed.
  Lemma use_injective (u u' : hash_use P) : use_fits u -> use_fits u' -> use_bytes u = use_bytes u' -> u = u'.
  Proof using HC HS.
    pose proof HC as [F [H1 [H2 T]]]. destruct HS as [Hs1 Ha].
    assert (PF := coded_prefix _ _ F). assert (P1 := coded_prefix _ _ H1). assert (P2 := coded_prefix _ _ H2). assert (PT := coded_prefix _ _ T).
    assert (LC : forall a b c : pGT P, length (use_bytes (Combination a b c)) = 3 * sT).
    { intros. cbn [use_bytes]. rewrite !app_length, !(proj1 T). lia. }
    assert (LK : forall (x : K) ka kb, length (use_bytes (TwoKeyPoint x ka kb)) = sF + s2 + s1).
    { intros. cbn [use_bytes]. rewrite !app_length, (proj1 F), (proj1 H2), (proj1 H1). lia. }
    assert (LO : forall (x : K) k, length (use_bytes (OneKeyPoint (P := P) x k)) = sF + s2).
    { intros. cbn [use_bytes]. rewrite !app_length, (proj1 F), (proj1 H2). lia. }
    intros Hf Hf' Heq. pose proof (f_equal (@length _) Heq) as Hl.
    destruct u as [a b c|x c1 c2|x ka kb|x c1 c2|x k], u' as [a' b' c'|x' c1' c2'|x' ka' kb'|x' c1' c2'|x' k'];
      repeat match type of Hl with
      | context [length (use_bytes (PairingRound ?y ?d1 ?d2))] => let k := fresh "m" in let E := fresh "E" in
          destruct (round_length y d1 d2) as [k E]; rewrite E in Hl
      | context [length (use_bytes (MultiexpRound ?y ?d1 ?d2))] => let l := fresh "l" in let E := fresh "E" in
          destruct (mround_length y d1 d2) as [l E]; rewrite E in Hl
      | context [length (use_bytes (Combination ?a ?b ?c))] => rewrite (LC a b c) in Hl
      | context [length (use_bytes (TwoKeyPoint ?a ?b ?c))] => rewrite (LK a b c) in Hl
      | context [length (use_bytes (OneKeyPoint ?a ?b))] => rewrite (LO a b) in Hl
      end.
    all: try (exfalso;
      match goal with
      | E1 : length (use_bytes (PairingRound _ _ _)) = _ + ?k * _, E2 : length (use_bytes (MultiexpRound _ _ _)) = _ + ?l * _ |- _ => specialize (Ha k l)
      | E1 : length (use_bytes (PairingRound _ _ _)) = _ + ?k * _ |- _ => specialize (Ha k 0)
      | E2 : length (use_bytes (MultiexpRound _ _ _)) = _ + ?l * _ |- _ => specialize (Ha 0 l)
      | _ => specialize (Ha 0 0)
      end; cbv zeta in Ha; clear - Hl Ha Hs1; lia).
    all: clear Hl; cbn [use_bytes] in Heq.
    - apply PT in Heq as [-> E]. apply PT in E as [-> E]. f_equal. now apply (proj2 T).
    - apply PF in Heq as [-> E']. destruct Hf, Hf'. apply triple_prefix in E' as [-> ->]; auto.
    - apply PF in Heq as [-> E]. apply P2 in E as [-> E]. f_equal. now apply (proj2 H1).
    - apply PF in Heq as [-> E']. destruct Hf, Hf'. apply triple_prefix in E' as [-> ->]; auto.
    - apply PF in Heq as [-> E]. f_equal. now apply (proj2 H2).
  Qed.

  (** an input that was hashed determines the nonce, what it was hashed for and all contents *)
  Theorem C104_input_determines_use n n' (u u' : hash_use P) : u64_bound n -> u64_bound n' -> use_fits u -> use_fits u' ->
    usize_be n ++ use_bytes u = usize_be n' ++ use_bytes u' -> n = n' /\ u = u'.
  Proof using HC HS.
    intros Hn Hn' Hu Hu' E. apply app_same_length in E as [E1 E2]; [|now rewrite !usize_be_length].
    split; [now apply usize_be_inj|now apply use_injective].
  Qed.
End Separation.

(** all inputs of the aggregation are of these kinds *)
Theorem C104_groth16_uses (P : pairing) (proof : agg_proof P) q : agg_inputs proof q <->
  exists n u, q = usize_be n ++ use_bytes u /\
    match u with
    | Combination a b c => (a, b, c) = (ag_com_a proof, ag_com_b proof, ag_com_c proof)
    | PairingRound _ c1 c2 => In (c1, c2) (gp_steps (tp_gipa (ag_tipa_ab proof)))
    | TwoKeyPoint _ ka kb => (ka, kb) = tp_final_ck (ag_tipa_ab proof)
    | MultiexpRound _ c1 c2 => In (c1, c2) (gp_steps (ts_gipa (ag_tipa_c proof)))
    | OneKeyPoint _ k => k = ts_final_ck (ag_tipa_c proof)
    end.
Proof.
  split.
  - intros [[n ->]|[[[n [x [c1 [c2 [Hi ->]]]]]|[n [x ->]]]|[[n [x [c1 [c2 [Hi ->]]]]]|[n [x ->]]]]]; exists n.
    + exists (Combination (ag_com_a proof) (ag_com_b proof) (ag_com_c proof)). auto.
    + exists (PairingRound x c1 c2). auto.
    + exists (TwoKeyPoint x (fst (tp_final_ck (ag_tipa_ab proof))) (snd (tp_final_ck (ag_tipa_ab proof)))). split; [reflexivity|]. symmetry. apply surjective_pairing.
    + exists (MultiexpRound x c1 c2). auto.
    + exists (OneKeyPoint x (ts_final_ck (ag_tipa_c proof))). auto.
  - intros [n [u [-> H]]]. destruct u as [a b c|x c1 c2|x ka kb|x c1 c2|x k]; cbn [use_bytes].
    + injection H as -> -> ->. left. now exists n.
    + right. left. left. now exists n, x, c1, c2.
    + right. left. right. exists n, x. now rewrite <- H.
    + right. right. left. now exists n, x, c1, c2.
    + subst k. right. right. right. now exists n, x.
Qed.

(** the sizes of BLS12-381 and BLS12-377 without compression *)
Theorem C104_bls12_sizes : sizes_apart 32 96 192 576.
Proof. split; [discriminate|]. intros k l. cbv zeta. lia. Qed.
(** nothing but the sizes separates the kinds: when they coincide, one input is hashed for two purposes *)
Theorem C104_no_separation_refuted : exists (P : pairing) (sF s1 s2 sT : nat), coded_pairing P sF s1 s2 sT /\
  ~ forall n n' (u u' : hash_use P), u64_bound n -> u64_bound n' -> use_fits u -> use_fits u' ->
    usize_be n ++ use_bytes u = usize_be n' ++ use_bytes u' -> n = n' /\ u = u'.
Proof.
  exists ZPair, 1, 1, 1, 1.
  assert (Hz : coded (@fser ZP) 1).
  { split; [reflexivity|]. intros a b E. rewrite <- (app_nil_r (fser a)), <- (app_nil_r (fser b)) in E. now apply zp_ser_prefix_free in E. }
  split; [now repeat split; try apply Hz|].
  intros H. destruct (H 0 0 (Combination (zq 1 : pGT ZPair) (zq 2) (zq 3)) (TwoKeyPoint (P := ZPair) (zq 1) (zq 2) (zq 3))) as [_ E]; try exact I; try reflexivity.
  discriminate E.
Qed.

(** ** Examples *)
(** a hash function that differs from toy_digest on all short inputs; none of them is hashed *)
Definition ex104_digest (q : bytes) : bytes := if length q <? 10 then [] else toy_digest q.
Example C104_example_agree (proof : agg_proof ZPair) : (forall q, agg_inputs proof q -> toy_digest q = ex104_digest q) /\ toy_digest [7%N] <> ex104_digest [7%N].
Proof.
  split; [|discriminate].
  assert (H : forall n (x y : ZP) l, toy_digest (usize_be n ++ fser x ++ fser y ++ l) = ex104_digest (usize_be n ++ fser x ++ fser y ++ l)).
  { intros n x y l. unfold ex104_digest. rewrite !app_length, usize_be_length. reflexivity. }
  intros q Hq. apply C104_groth16_uses in Hq as [n [u [-> _]]].
  destruct u as [a b c|x [[a1 b1] t1] c2|x ka kb|x [[a1 b1] t1] c2|x k]; cbn [use_bytes triple_bytes]; rewrite <- ?app_assoc.
  - exact (H n a b _).
  - exact (H n x a1 _).
  - exact (H n x ka _).
  - exact (H n x a1 _).
  - rewrite <- (app_nil_r (mser k)). exact (H n x k []).
Qed.
(** the aggregation and its verification with both, and with a function that differs on inputs of 10 bytes *)
Definition ex104_other (q : bytes) : bytes := if length q =? 10 then map (fun x => (x + 1)%N) (toy_digest q) else toy_digest q.
Example C104_example :
  (do pv <- ex_agg toy_digest ex_pfs; ex_gverify toy_digest ex_inputs pv) = Ok true /\
  (do pv <- ex_agg toy_digest ex_pfs; ex_gverify ex104_digest ex_inputs pv) = Ok true /\
  (do pv <- ex_agg ex104_digest ex_pfs; ex_gverify toy_digest ex_inputs pv) = Ok true /\
  (do pv <- ex_agg toy_digest ex_pfs; ex_gverify ex104_other ex_inputs pv) = Ok false.
Proof. repeat split; vm_compute; reflexivity. Qed.

(** encodings of 1, 3, 6 and 18 bytes keep the kinds apart *)
Definition padded (k : nat) : module ZP := {|
  mcar := ZM; m0 := m0; madd := madd; mopp := mopp; mscale := mscale; meqb := meqb; mser := fun a => repeat 0%N k ++ mser a;
  madd_comm := madd_comm _ ZM; madd_assoc := madd_assoc _ ZM; madd_0_l := madd_0_l _ ZM; madd_opp := madd_opp _ ZM; mscale_1 := mscale_1 _ ZM;
  mscale_mul := mscale_mul _ ZM; mscale_add_r := mscale_add_r _ ZM; mscale_add_l := mscale_add_l _ ZM; meqb_spec := meqb_spec _ ZM |}.
Definition ex104_pairing : pairing :=
  {| pK := ZP; pG1 := padded 2; pG2 := padded 5; pGT := padded 17; tf := zp; tf1 := tf1 ZPair; tfmul := tfmul ZPair;
     mml := mml ZPair; fexp := fexp ZPair; pr_e := pr_e ZPair; pr_g := pr_g ZPair; pr_h := pr_h ZPair;
     fexp_1 := fexp_1 ZPair; fexp_mul := fexp_mul ZPair; fexp_mml := fexp_mml ZPair; e_add_l := e_add_l ZPair; e_add_r := e_add_r ZPair;
     e_scale_l := e_scale_l ZPair; e_scale_r := e_scale_r ZPair; e_nondeg_l := e_nondeg_l ZPair; e_nondeg_r := e_nondeg_r ZPair |}.
Lemma zp_coded : coded (@fser ZP) 1.
Proof. split; [reflexivity|]. intros a b E. rewrite <- (app_nil_r (fser a)), <- (app_nil_r (fser b)) in E. now apply zp_ser_prefix_free in E. Qed.
Lemma padded_coded k : coded (@mser _ (padded k)) (k + 1).
Proof.
  destruct zp_coded as [H1 H2]. split.
  - intros a. cbn [mser padded]. rewrite app_length, repeat_length. reflexivity.
  - intros a b E. apply app_inv_head in E. now apply H2.
Qed.
Example C104_example_sizes : coded_pairing ex104_pairing 1 3 6 18 /\ sizes_apart 1 3 6 18.
Proof.
  split; [exact (conj zp_coded (conj (padded_coded 2) (conj (padded_coded 5) (padded_coded 17))))|].
  split; [discriminate|]. intros k l. cbv zeta. lia.
Qed.

Print Assumptions C104_gipa_verify.
Print Assumptions C104_gipa_prove.
Print Assumptions C104_gssm_verify.
Print Assumptions C104_gssm_prove.
Print Assumptions C104_tipa_verify.
Print Assumptions C104_tipa_prove.
Print Assumptions C104_tssm_verify.
Print Assumptions C104_tssm_prove.
Print Assumptions C104_poly_verify.
Print Assumptions C104_transparent_verify.
Print Assumptions C104_groth16_verify.
Print Assumptions C104_groth16_aggregate.
Print Assumptions C104_input_determines_use.
Print Assumptions C104_groth16_uses.
Print Assumptions C104_bls12_sizes.
Print Assumptions C104_no_separation_refuted.

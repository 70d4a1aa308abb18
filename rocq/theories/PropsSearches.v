(** Property C99: for how many hash functions a search for a challenge takes more than t nonces. *)
Require Import List Arith NArith ZArith Lia Bool Permutation.
Import ListNotations.
Require Import Verif.Outcome Verif.Algebra Verif.Zp Verif.Rust Verif.InnerProducts Verif.Commitments
  Verif.Gipa Verif.Poly Verif.Tipa Verif.Ssm Verif.Floats Verif.PolyCommit Verif.Transparent Verif.Groth16 Verif.Spec Verif.ListFacts
  Verif.RustFacts Verif.SerFacts Verif.PolyFacts Verif.GipaFacts Verif.Searches Verif.PropsBase Verif.PropsGipa Verif.PropsTipa Verif.PropsGroth.

(** ** Computations without searches do not run out *)
Lemma quiet_bind {A B} (x : res A) (f : A -> res B) : x <> Loop -> (forall a, x = Ok a -> f a <> Loop) -> rbind x f <> Loop.
Proof. intros H Hf. destruct x as [a|e| |]; cbn [rbind]; [now apply Hf|discriminate|discriminate|congruence]. Qed.
Lemma quiet_assert b : rassert b <> Loop.
Proof. now destruct b. Qed.
Lemma quiet_unwrap {A} (o : option A) : runwrap o <> Loop.
Proof. now destruct o. Qed.
Lemma quiet_index {A} (l : list A) i : index l i <> Loop.
Proof. apply quiet_unwrap. Qed.
Lemma quiet_slice_to {A} (l : list A) n : slice_to l n <> Loop.
Proof. unfold slice_to. now destruct (n <=? length l). Qed.
Lemma quiet_slice_from {A} (l : list A) n : slice_from l n <> Loop.
Proof. unfold slice_from. now destruct (n <=? length l). Qed.
Lemma quiet_mapM {A B} (f : A -> res B) l : (forall a, f a <> Loop) -> rmapM f l <> Loop.
Proof.
  intros H. induction l as [|a l IH]; cbn [rmapM]; [discriminate|]. apply quiet_bind; [apply H|]. intros y _. apply quiet_bind; [exact IH|]. discriminate.
Qed.
Lemma quiet_and (a b : res bool) : a <> Loop -> b <> Loop -> rand_then a b <> Loop.
Proof. intros Ha Hb. unfold rand_then. apply quiet_bind; [exact Ha|]. intros [|] _; [exact Hb|discriminate]. Qed.
Lemma quiet_pairing_ip P E l r : pairing_ip P E l r <> Loop.
Proof.
  unfold pairing_ip, cfg_multi_pairing, chunks. destruct (negb (length l =? length r)); [discriminate|].
  apply quiet_bind; [|intros; apply quiet_unwrap]. destruct (chunk_size E (length l) =? 0); cbn [rbind]; [discriminate|].
  apply quiet_bind; [|discriminate]. apply quiet_mapM. intros a. unfold mml_chunk. now destruct (length (fst a) =? length (snd a)).
Qed.
Lemma quiet_multiexp_ip {K} (M : module K) l r : multiexp_ip M l r <> Loop.
Proof. unfold multiexp_ip. destruct (negb (length l =? length r)); [discriminate|apply quiet_unwrap]. Qed.
Lemma quiet_scalar_ip {K : field} E (l r : list K) : scalar_ip E l r <> Loop.
Proof. unfold scalar_ip. now destruct (negb (length l =? length r)). Qed.

Definition quiet_dhc {R K} {M Ky : module K} {O : carrier K} (C : dhc R M Ky O) : Prop := forall k m, dh_commit C k m <> Loop.
Definition quiet_ip {A B C : Type} (ip : list A -> list B -> res C) : Prop := forall l r, ip l r <> Loop.
Lemma quiet_verify {R K} {M Ky : module K} {O : carrier K} (C : dhc R M Ky O) k m o : quiet_dhc C -> dh_verify C k m o <> Loop.
Proof. intros H. unfold dh_verify. apply quiet_bind; [apply H|discriminate]. Qed.
Lemma quiet_afgho_g1 {R} P E (r : sampler R (pG2 P)) : quiet_dhc (afgho_g1 P E r).
Proof. intros k m. apply quiet_pairing_ip. Qed.
Lemma quiet_afgho_g2 {R} P E (r : sampler R (pG1 P)) : quiet_dhc (afgho_g2 P E r).
Proof. intros k m. apply quiet_pairing_ip. Qed.
Lemma quiet_pedersen {R K} (G : module K) (r : sampler R G) : quiet_dhc (pedersen G r).
Proof. intros k m. apply quiet_multiexp_ip. Qed.
Lemma quiet_identity {R K} (T : module K) : quiet_dhc (identity (R := R) T).
Proof. discriminate. Qed.
Lemma quiet_placeholder {R} K : quiet_dhc (ssm_placeholder (R := R) K).
Proof. discriminate. Qed.

Create HintDb quiet.
#[export] Hint Resolve quiet_assert quiet_unwrap quiet_index quiet_slice_to quiet_slice_from quiet_pairing_ip quiet_multiexp_ip quiet_scalar_ip
  quiet_verify quiet_afgho_g1 quiet_afgho_g2 quiet_pedersen quiet_identity quiet_placeholder : quiet.
#[export] Hint Extern 1 (Ok _ <> Loop) => discriminate : quiet.
#[export] Hint Extern 1 (Err _ <> Loop) => discriminate : quiet.
#[export] Hint Extern 1 (Panic <> Loop) => discriminate : quiet.
Ltac quiet := repeat first
  [ solve [auto with quiet]
  | apply quiet_bind; [|let a := fresh "a" in intros a _; lazymatch type of a with (_ * _)%type => destruct a as [? ?] | _ => idtac end]
  | apply quiet_and
  | apply quiet_mapM; intros ?
  | match goal with |- (if ?b then _ else _) <> Loop => destruct b end ].

Section Pure.
  Context {K : field}.
  Lemma quiet_push (x : K) js v : push_scaled x js v <> Loop.
  Proof. revert v. induction js as [|j js IH]; intros v; cbn [push_scaled]; [discriminate|]. apply quiet_bind; [apply quiet_index|]. intros y _. apply IH. Qed.
  Lemma quiet_exponents (t : list K) : forall i ea eb, ck_exponents i t ea eb <> Loop.
  Proof.
    induction t as [|c t IH]; intros i ea eb; cbn [ck_exponents]; [discriminate|]. apply quiet_bind; [apply quiet_unwrap|]. intros ci _.
    apply quiet_bind; [apply quiet_push|]. intros ea' _. apply quiet_bind; [apply quiet_push|]. intros eb' _. apply IH.
  Qed.
  Lemma quiet_combine {M : module K} (ck : list M) (e : list K) : ck_combine ck e <> Loop.
  Proof. unfold ck_combine. quiet. Qed.
  Lemma quiet_keys {KA KB : module K} (ka : list KA) (kb : list KB) (t : list K) : gipa_final_keys ka kb t <> Loop.
  Proof.
    unfold gipa_final_keys. apply quiet_bind; [apply quiet_assert|]. intros _ _. apply quiet_bind; [apply quiet_exponents|]. intros [ea eb] _.
    apply quiet_bind; [apply quiet_assert|]. intros _ _. apply quiet_bind; [apply quiet_combine|]. intros a _.
    apply quiet_bind; [apply quiet_combine|]. discriminate.
  Qed.
  Lemma quiet_invert (l : list K) : invert_all l <> Loop.
  Proof. unfold invert_all. quiet. Qed.
  Lemma quiet_scalar_terms (t : list K) : forall b, final_scalar_terms t b <> Loop.
  Proof. induction t as [|x t IH]; intros b; cbn [final_scalar_terms]; [discriminate|]. apply quiet_bind; [apply quiet_unwrap|]. intros xi _. apply quiet_bind; [apply IH|discriminate]. Qed.
  Lemma quiet_final_scalar E (t : list K) b : final_scalar E t b <> Loop.
  Proof. unfold final_scalar. apply quiet_bind; [apply quiet_scalar_terms|discriminate]. Qed.
  Lemma quiet_coefficients (t : list K) : forall i p cs, coefficients_loop i t p cs <> Loop.
  Proof. induction t as [|x t IH]; intros i p cs; cbn [coefficients_loop]; [discriminate|]. apply quiet_bind; [apply quiet_push|]. intros a _. apply IH. Qed.
  Lemma quiet_ck_opening {G : module K} (powers : list G) (t : list K) r c : prove_ck_kzg_opening powers t r c <> Loop.
  Proof.
    unfold prove_ck_kzg_opening, poly_coefficients_from_transcript. apply quiet_bind; [apply quiet_bind; [apply quiet_coefficients|discriminate]|].
    intros cs _. apply quiet_bind; [apply quiet_assert|]. intros _ _. apply quiet_bind; [|intros; apply quiet_multiexp_ip].
    destruct (poly_div_linear (poly_sub (from_coefficients cs) (from_coefficients [poly_eval_product_form t c r])) c (poly_sub_stripped _ _)) as [q [Hq _]].
    rewrite Hq. discriminate.
  Qed.
  Lemma quiet_powers n (s : K) : structured_scalar_power n s <> Loop.
  Proof.
    unfold structured_scalar_power. generalize (seq 1 (n - 1)) [f1 : K]. intros js. induction js as [|j js IH]; intros l; cbn [scalar_power_loop]; [discriminate|].
    apply quiet_bind; [apply quiet_index|]. intros; apply IH.
  Qed.
  Lemma quiet_degree (l : list K) : poly_degree l <> Loop.
  Proof. unfold poly_degree. destruct (poly_is_zero l); quiet. Qed.
  Lemma quiet_take_row {A} n (it : list A) : take_row n it <> Loop.
  Proof. revert it. induction n as [|n IH]; intros it; cbn [take_row]; [discriminate|]. apply quiet_bind; [apply quiet_unwrap|]. intros x _. apply quiet_bind; [apply IH|]. intros [? ?] _. discriminate. Qed.
  Lemma quiet_form d (p : list K) : bivariate_form d p <> Loop.
  Proof.
    destruct d as [xd yd]. unfold bivariate_form. generalize (chain_cycle_take p f0 ((xd + 1) * (yd + 1))). induction (xd + 1) as [|n IH]; intros it; cbn [take_rows]; [discriminate|].
    apply quiet_bind; [apply quiet_take_row|]. intros [row it'] _. apply quiet_bind; [apply IH|]. discriminate.
  Qed.
  Lemma quiet_y_eval ny nx (px : list K) cs : y_eval_coefficients ny nx px cs <> Loop.
  Proof. unfold y_eval_coefficients. quiet. Qed.
  Lemma quiet_degrees a b d : bivariate_degrees a b d <> Loop.
  Proof. unfold bivariate_degrees. cbv zeta. destruct (_ =? 0); discriminate. Qed.
End Pure.
#[export] Hint Resolve quiet_keys quiet_invert quiet_final_scalar quiet_ck_opening quiet_powers quiet_degree quiet_form quiet_y_eval quiet_degrees : quiet.
Lemma quiet_kzg_open {P : pairing} (powers : list (pG1 P)) p z : kzg_open powers p z <> Loop.
Proof.
  unfold kzg_open. apply quiet_bind; [apply quiet_degree|]. intros d Hd. apply quiet_bind; [apply quiet_assert|]. intros _ _.
  apply quiet_bind; [|intros; apply quiet_unwrap]. apply poly_degree_ok in Hd as [Hs|[Hz _]].
  - destruct (poly_div_linear p z Hs) as [q [Hq _]]. rewrite Hq. discriminate.
  - unfold poly_div. rewrite Hz. discriminate.
Qed.
#[export] Hint Resolve quiet_kzg_open : quiet.

(** ** The number of searches of each program *)
Ltac pure_step := apply searching_after; [quiet|let a := fresh "a" in intros a _; lazymatch type of a with (_ * _)%type => destruct a as [? ?] | _ => idtac end].
Ltac pure_end := apply searching_pure; quiet.

Section GipaSearches.
  Context {R : Type} {K : field} {MA MB MT KA KB KT : module K} {OA OB OT : carrier K}.
  Variables (LMC : dhc R MA KA OA) (RMC : dhc R MB KB OB) (IPC : dhc R MT KT OT) (ip : list MA -> list MB -> res MT).
  Hypotheses (QA : quiet_dhc LMC) (QB : quiet_dhc RMC) (QT : quiet_dhc IPC) (QI : quiet_ip ip).
  Notation sg := (searching (K := K) [Invertible]).

  Lemma quiet_commit3 ka ma kb mb kt : gipa_commit3 LMC RMC IPC ip ka ma kb mb kt <> Loop.
  Proof using QA QB QT QI.
    unfold gipa_commit3. apply quiet_bind; [apply QA|]. intros a _. apply quiet_bind; [apply QB|]. intros b _. apply quiet_bind; [apply QI|]. intros v _.
    apply quiet_bind; [apply QT|]. discriminate.
  Qed.
  Lemma searching_prove_loop k : forall n ma mb ka kb kt steps tr, length ma = 2 ^ k -> k <= n ->
    sg k (fun D fuel => gipa_prove_loop LMC RMC IPC ip D fuel n ma mb ka kb kt steps tr).
  Proof using QA QB QT QI.
    induction k as [|k IH]; intros n ma mb ka kb kt steps tr Hl Hn.
    - cbn [Nat.pow] in Hl. apply (searching_ext _ _ (fun _ _ => do a <- index ma 0; do b <- index mb 0; do ka <- index ka 0; do kb <- index kb 0; Ok ((a, b), (ka, kb), steps, tr))).
      + intros D fuel. destruct n; cbn [gipa_prove_loop]; rewrite Hl; reflexivity.
      + pure_end.
    - destruct n as [|n]; [lia|].
      assert (Hne : (length ma =? 1) = false) by (apply Nat.eqb_neq; rewrite Hl; cbn [Nat.pow]; pose proof (Nat.pow_nonzero 2 k); lia).
      assert (Hs : length ma / 2 = 2 ^ k) by (rewrite Hl; cbn [Nat.pow]; rewrite Nat.mul_comm; apply Nat.div_mul; lia).
      cbn [gipa_prove_loop]. rewrite Hne. cbv zeta.
      apply searching_after; [apply quiet_slice_from|]. intros a1 H1. apply searching_after; [apply quiet_slice_to|]. intros a2 H2.
      do 6 (apply searching_after; [first [apply quiet_slice_to|apply quiet_slice_from]|intros ? _]).
      do 2 (apply searching_after; [apply quiet_commit3|intros ? _]).
      change (S k) with (1 + k). apply searching_bind; [apply searching_round; now left|]. intros [c ci].
      apply IH; [|lia]. apply slice_from_ok in H1 as [H1 ->]. apply slice_to_ok in H2 as [H2 ->].
      unfold rescale. rewrite zipw_length, skipn_length, firstn_length, Hs, Hl. cbn [Nat.pow]. pose proof (Nat.pow_nonzero 2 k). lia.
  Qed.
  Lemma searching_prove_aux values ck :
    sg (Nat.log2 (length (fst values))) (fun D fuel => gipa_prove_with_aux LMC RMC IPC ip D fuel values ck).
  Proof using QA QB QT QI.
    destruct values as [ma mb], ck as [[ka kb] kt]. unfold gipa_prove_with_aux. cbn [fst].
    destruct (is_power_of_two (length ma)) eqn:Ep; cbn [rassert rbind]; [|apply searching_pure; discriminate].
    assert (He : length ma = 2 ^ Nat.log2 (length ma)).
    { unfold is_power_of_two in Ep. apply Nat.eqb_eq, count_ones_pow2 in Ep as [k Hk]. rewrite Hk, Nat.log2_pow2; lia. }
    rewrite <- (Nat.add_0_r (Nat.log2 (length ma))). apply searching_bind.
    - apply searching_prove_loop; [exact He|]. rewrite He at 2. apply Nat.lt_le_incl, Nat.pow_gt_lin_r. lia.
    - intros [[[m k] st] tr]. apply searching_pure. discriminate.
  Qed.
  Lemma searching_prove values ck com :
    sg (Nat.log2 (length (fst (fst values)))) (fun D fuel => gipa_prove LMC RMC IPC ip D fuel values ck com).
  Proof using QA QB QT QI.
    destruct values as [[a b] t], ck as [[ka kb] kt], com as [[ca cb] ct]. unfold gipa_prove. cbn [fst].
    apply searching_after; [apply QI|]. intros v _. destruct (negb (meqb v t)); [pure_end|]. destruct (negb (count_ones (length a) =? 1)); [pure_end|].
    apply searching_after; [quiet|]. intros ok _. destruct (negb ok); [pure_end|].
    rewrite <- (Nat.add_0_r (Nat.log2 (length a))). apply searching_bind; [exact (searching_prove_aux (a, b) (ka, kb, [kt]))|]. intros [p x]. pure_end.
  Qed.
  Lemma searching_challenges_loop (steps : list (com3 OA OB OT * com3 OA OB OT)) : forall com tr,
    sg (length steps) (fun D fuel => gipa_challenges_loop D fuel com tr steps).
  Proof using.
    clear. induction steps as [|[c1 c2] steps IH]; intros com tr; cbn [gipa_challenges_loop length]; [apply searching_pure; discriminate|].
    change (S (length steps)) with (1 + length steps). apply searching_bind; [apply searching_round; now left|]. intros [c ci].
    destruct com as [[? ?] ?], c1 as [[? ?] ?], c2 as [[? ?] ?]. apply IH.
  Qed.
  Lemma searching_recursive com (proof : gipa_proof MA MB OA OB OT) :
    sg (length (gp_steps proof)) (fun D fuel => gipa_recursive_challenges D fuel com proof).
  Proof using.
    clear. unfold gipa_recursive_challenges. rewrite <- (Nat.add_0_r (length (gp_steps proof))). apply searching_bind.
    - rewrite <- rev_length. apply searching_challenges_loop.
    - intros [? ?]. apply searching_pure. discriminate.
  Qed.
  Lemma quiet_base ka kb kt com (proof : gipa_proof MA MB OA OB OT) : gipa_verify_base LMC RMC IPC ip ka kb kt com proof <> Loop.
  Proof using QA QB QT QI.
    unfold gipa_verify_base. destruct com as [[? ?] ?], (gp_base proof). apply quiet_bind; [apply QI|]. intros t _. quiet.
  Qed.
  Lemma searching_verify ck com (proof : gipa_proof MA MB OA OB OT) :
    sg (length (gp_steps proof)) (fun D fuel => gipa_verify LMC RMC IPC ip D fuel ck com proof).
  Proof using QA QB QT QI.
    destruct ck as [[ka kb] kt]. unfold gipa_verify. destruct (_ || _); [pure_end|].
    rewrite <- (Nat.add_0_r (length (gp_steps proof))). apply searching_bind; [apply searching_recursive|]. intros [base tr].
    pure_step. apply searching_pure. apply quiet_base.
  Qed.
End GipaSearches.

Section SsmSearches.
  Context {R : Type} {K : field} {MA MT KA KT : module K} {OA OT : carrier K}.
  Variables (LMC : dhc R MA KA OA) (IPC : dhc R MT KT OT) (ip : list MA -> list (fmod K) -> res MT) (E : penv).
  Hypotheses (QA : quiet_dhc LMC) (QT : quiet_dhc IPC) (QI : quiet_ip ip).
  Notation sg := (searching (K := K) [Invertible]).
  Lemma searching_gssm_prove values ck : sg (Nat.log2 (length (fst values))) (fun D fuel => gssm_prove LMC IPC ip D fuel values ck).
  Proof using QA QT QI.
    destruct ck as [ka kt]. unfold gssm_prove. rewrite <- (Nat.add_0_r (Nat.log2 (length (fst values)))). apply searching_bind.
    - apply searching_prove_aux; auto. apply quiet_placeholder.
    - intros [? ?]. pure_end.
  Qed.
  Lemma searching_gssm_verify ck com b (proof : gssm_proof MA OA OT) :
    sg (length (gp_steps proof)) (fun D fuel => gssm_verify LMC IPC ip D fuel E ck com b proof).
  Proof using QA QT QI.
    destruct ck as [ka kt]. unfold gssm_verify. rewrite <- (Nat.add_0_r (length (gp_steps proof))). apply searching_bind; [apply searching_recursive|].
    intros [[[ca cb] ct] tr]. pure_step. apply searching_after; [apply quiet_base; auto; apply quiet_placeholder|]. intros gv _.
    apply searching_after; [apply quiet_final_scalar|]. intros bb _. apply searching_after; [apply QI|]. intros t _. pure_end.
  Qed.
End SsmSearches.

Notation both := [Invertible; Random].
Lemma both_of {K : field} {A} n (f : (bytes -> bytes) -> nat -> res A) : searching (K := K) [Invertible] n f -> searching (K := K) both n f.
Proof. apply searching_uses. intros u [<-|[]]. now left. Qed.
Section TipaSearches.
  Context {R : Type} {P : pairing}.
  Notation K := (pK P).
  Context {MA MB MT KT : module (pK P)} {OA OB OT : carrier (pK P)}.
  Variables (LMC : dhc R MA (pG2 P) OA) (RMC : dhc R MB (pG1 P) OB) (IPC : dhc R MT KT OT) (ip : list MA -> list MB -> res MT).
  Hypotheses (QA : quiet_dhc LMC) (QB : quiet_dhc RMC) (QT : quiet_dhc IPC) (QI : quiet_ip ip).
  Notation sg := (searching (K := K) both).
  Lemma searching_tipa_prove s values ck r :
    sg (Nat.log2 (length (fst values)) + 1) (fun D fuel => tipa_prove_with_srs_shift LMC RMC IPC ip D fuel s values ck r).
  Proof using QA QB QT QI.
    destruct ck as [[ka kb] kt]. unfold tipa_prove_with_srs_shift. apply searching_bind; [apply both_of; apply searching_prove_aux; auto|].
    intros [proof aux]. destruct (ga_ck_base aux) as [fa fb]. cbv zeta.
    apply searching_after; [apply quiet_invert|]. intros ti _. apply searching_after; [apply quiet_unwrap|]. intros ri _.
    apply searching_after; [apply quiet_unwrap|]. intros t0 _. change 1 with (1 + 0). apply searching_bind; [apply searching_rand; right; now left|].
    intros c. pure_end.
  Qed.
  Lemma searching_tipa_verify v kt com proof r :
    sg (length (gp_steps (tp_gipa proof)) + 1) (fun D fuel => tipa_verify_with_srs_shift LMC RMC IPC ip D fuel v kt com proof r).
  Proof using QA QB QT QI.
    unfold tipa_verify_with_srs_shift. apply searching_bind; [apply both_of, searching_recursive|].
    intros [[[ca cb] ct] tr]. apply searching_after; [apply quiet_invert|]. intros ti _. destruct (tp_final_ck proof) as [fa fb], (tp_final_ck_proof proof) as [pa pb].
    apply searching_after; [apply quiet_unwrap|]. intros t0 _. change 1 with (1 + 0). apply searching_bind; [apply searching_rand; right; now left|].
    intros c. apply searching_pure. apply quiet_bind; [apply quiet_unwrap|]. intros ri _.
    unfold verify_ck_g2_kzg_opening, verify_ck_g1_kzg_opening. cbn [rbind]. destruct (gp_base (tp_gipa proof)) as [a b].
    apply quiet_bind; [apply QI|]. intros t _. quiet.
  Qed.
End TipaSearches.
Section TssmSearches.
  Context {R : Type} {P : pairing}.
  Notation K := (pK P).
  Context {MA MT KT : module (pK P)} {OA OT : carrier (pK P)}.
  Variables (LMC : dhc R MA (pG2 P) OA) (IPC : dhc R MT KT OT) (ip : list MA -> list (fmod (pK P)) -> res MT) (E : penv).
  Hypotheses (QA : quiet_dhc LMC) (QT : quiet_dhc IPC) (QI : quiet_ip ip).
  Notation sg := (searching (K := K) both).
  Lemma searching_tssm_prove s values ck :
    sg (Nat.log2 (length (fst values)) + 1) (fun D fuel => tssm_prove LMC IPC ip D fuel s values ck).
  Proof using QA QT QI.
    destruct ck as [ka kt]. unfold tssm_prove. apply searching_bind; [apply both_of; apply searching_prove_aux; auto; apply quiet_placeholder|].
    intros [proof aux]. destruct (ga_ck_base aux) as [fa fb]. cbv zeta.
    apply searching_after; [apply quiet_invert|]. intros ti _. apply searching_after; [apply quiet_unwrap|]. intros t0 _.
    change 1 with (1 + 0). apply searching_bind; [apply searching_rand; right; now left|]. intros c. pure_end.
  Qed.
  Lemma searching_tssm_verify v kt com b proof :
    sg (length (gp_steps (ts_gipa proof)) + 1) (fun D fuel => tssm_verify LMC IPC ip D fuel E v kt com b proof).
  Proof using QA QT QI.
    unfold tssm_verify. apply searching_bind; [apply both_of, searching_recursive|].
    intros [[[ca cb] ct] tr]. apply searching_after; [apply quiet_invert|]. intros ti _. cbv zeta.
    apply searching_after; [apply quiet_unwrap|]. intros t0 _. change 1 with (1 + 0). apply searching_bind; [apply searching_rand; right; now left|].
    intros c. apply searching_pure. unfold verify_ck_g2_kzg_opening. cbn [rbind]. apply quiet_bind; [apply quiet_final_scalar|]. intros bb _.
    apply quiet_bind; [apply QI|]. intros t _. quiet.
  Qed.
End TssmSearches.

(** ** Statements *)
(** digests that cannot be used: the first 16 bytes are zero in the field; no field element is made from the digest *)
Definition no_inverse (K : field) (digest : bytes) : bool := feqb (f_ofN (from_be_bytes (firstn 16 digest)) : K) f0.
Definition no_element (K : field) (digest : bytes) : bool := match f_rand (f := K) digest with Some _ => false | None => true end.
Definition unusable (K : field) (digest : bytes) : bool := no_inverse K digest || no_element K digest.
Definition still_running {A} (x : res A) : bool := match x with Loop => true | _ => false end.

(** [f D t] runs with hash function D and gives up when a search has tried t nonces.  The hash functions: on the queries X any
    digests from Y, elsewhere the usable digests of D0. *)
Definition rarely_stuck {A} (bad : bytes -> bool) (n : nat) (f : (bytes -> bytes) -> nat -> res A) : Prop :=
  forall (X Y : list bytes) (D0 : bytes -> bytes) (t : nat), NoDup X -> (forall y, In y Y -> 16 <= length y) ->
    (forall q, 16 <= length (D0 q) /\ bad (D0 q) = false) -> (N.of_nat t <= 2 ^ 64)%N ->
    length (filter (fun D => still_running (f D t)) (tables X Y D0)) * length Y ^ t <= n * length (filter bad Y) ^ t * length Y ^ length X.

Lemma searching_stuck {K : field} {A} us bad n (f : (bytes -> bytes) -> nat -> res A) : (forall y, useless K us y = bad y) ->
  searching (K := K) us n f -> rarely_stuck bad n f.
Proof.
  intros Hb [T HT Hf] X Y D0 t HX HY HD Ht.
  assert (E : filter (fun D => still_running (f D t)) (tables X Y D0) = filter (runs_out t T) (tables X Y D0)).
  { apply filter_ext_in. intros D Hi. unfold runs_out. rewrite Hf; [reflexivity|]. intros q.
    destruct (in_dec bytes_dec q X) as [Hq|Hq]; [apply HY; exact (tables_in Y X D0 D q HX Hi Hq)|]. rewrite (tables_out Y X D0 D q Hi Hq). apply HD. }
  rewrite E. rewrite <- (filter_ext _ _ Hb Y). apply (runs_out_few us Y t Ht n T HT X D0 HX).
  intros p [q [H1 H2]]. exists q. split; [exact H1|]. split; [exact H2|]. rewrite Hb. apply HD.
Qed.
Lemma inv_stuck {K : field} {A} n (f : (bytes -> bytes) -> nat -> res A) : searching (K := K) [Invertible] n f -> rarely_stuck (no_inverse K) n f.
Proof.
  apply searching_stuck. intros y. unfold useless, no_inverse. cbn [existsb pick]. cbv zeta.
  now destruct (feqb (f_ofN (from_be_bytes (firstn 16 y)) : K) f0).
Qed.
Lemma both_stuck {K : field} {A} n (f : (bytes -> bytes) -> nat -> res A) : searching (K := K) both n f -> rarely_stuck (unusable K) n f.
Proof.
  apply searching_stuck. intros y. unfold useless, unusable, no_inverse, no_element. cbn [existsb pick]. cbv zeta.
  destruct (feqb (f_ofN (from_be_bytes (firstn 16 y)) : K) f0), (f_rand (f := K) y); reflexivity.
Qed.

Section C99.
  Context {R : Type} (P : pairing) (E : penv) (r1 : sampler R (pG1 P)) (r2 : sampler R (pG2 P)).
  Notation K := (pK P).
  Notation c1 := (afgho_g1 P E r2).
  Notation c2 := (afgho_g2 P E r1).
  Notation p1 := (pedersen (pG1 P) r1).
  Notation p2 := (pedersen (pG2 P) r2).
  Notation it := (identity (R := R) (pGT P)).
  Notation ig := (identity (R := R) (pG1 P)).
  Notation is_ := (identity (R := R) (fmod (pK P))).
  Ltac qs := auto with quiet; intros ? ?; first [apply quiet_pairing_ip|apply quiet_multiexp_ip|apply quiet_scalar_ip].

  (** GIPA: as many searches as rounds *)
  Theorem C99_gipa_prove values ck com values' ck' com' values'' ck'' com'' :
    rarely_stuck (no_inverse K) (Nat.log2 (length (fst (fst values)))) (fun D t => gipa_prove c1 c2 it (pairing_ip P E) D t values ck com) /\
    rarely_stuck (no_inverse K) (Nat.log2 (length (fst (fst values')))) (fun D t => gipa_prove c1 p1 ig (multiexp_ip (pG1 P)) D t values' ck' com') /\
    rarely_stuck (no_inverse K) (Nat.log2 (length (fst (fst values'')))) (fun D t => gipa_prove p1 p2 is_ (scalar_ip E) D t values'' ck'' com'').
  Proof. split; [|split]; apply inv_stuck, searching_prove; qs. Qed.
  Theorem C99_gipa_verify ck com proof ck' com' proof' ck'' com'' proof'' :
    rarely_stuck (no_inverse K) (length (gp_steps proof)) (fun D t => gipa_verify c1 c2 it (pairing_ip P E) D t ck com proof) /\
    rarely_stuck (no_inverse K) (length (gp_steps proof')) (fun D t => gipa_verify c1 p1 ig (multiexp_ip (pG1 P)) D t ck' com' proof') /\
    rarely_stuck (no_inverse K) (length (gp_steps proof'')) (fun D t => gipa_verify p1 p2 is_ (scalar_ip E) D t ck'' com'' proof'').
  Proof. split; [|split]; apply inv_stuck, searching_verify; qs. Qed.
  Theorem C99_gipa_ssm values ck com b proof values' ck' com' b' proof' :
    rarely_stuck (no_inverse K) (Nat.log2 (length (fst values))) (fun D t => gssm_prove c1 ig (multiexp_ip (pG1 P)) D t values ck) /\
    rarely_stuck (no_inverse K) (length (gp_steps proof)) (fun D t => gssm_verify c1 ig (multiexp_ip (pG1 P)) D t E ck com b proof) /\
    rarely_stuck (no_inverse K) (Nat.log2 (length (fst values'))) (fun D t => gssm_prove p1 is_ (scalar_ip E) D t values' ck') /\
    rarely_stuck (no_inverse K) (length (gp_steps proof')) (fun D t => gssm_verify p1 is_ (scalar_ip E) D t E ck' com' b' proof').
  Proof.
    split; [apply inv_stuck, searching_gssm_prove; qs|]. split; [apply inv_stuck, searching_gssm_verify; qs|].
    split; [apply inv_stuck, searching_gssm_prove; qs|apply inv_stuck, searching_gssm_verify; qs].
  Qed.
  (** TIPA: one more, for the point of the key opening *)
  Theorem C99_tipa s values ck r v kt com proof r' :
    rarely_stuck (unusable K) (Nat.log2 (length (fst values)) + 1) (fun D t => tipa_prove_with_srs_shift c1 c2 it (pairing_ip P E) D t s values ck r) /\
    rarely_stuck (unusable K) (length (gp_steps (tp_gipa proof)) + 1) (fun D t => tipa_verify_with_srs_shift c1 c2 it (pairing_ip P E) D t v kt com proof r').
  Proof. split; [apply both_stuck, searching_tipa_prove; qs|apply both_stuck, searching_tipa_verify; qs]. Qed.
  Theorem C99_tipa_ssm s values ck v kt com b proof :
    rarely_stuck (unusable K) (Nat.log2 (length (fst values)) + 1) (fun D t => tssm_prove c1 ig (multiexp_ip (pG1 P)) D t s values ck) /\
    rarely_stuck (unusable K) (length (gp_steps (ts_gipa proof)) + 1) (fun D t => tssm_verify c1 ig (multiexp_ip (pG1 P)) D t E v kt com b proof).
  Proof. split; [apply both_stuck, searching_tssm_prove; qs|apply both_stuck, searching_tssm_verify; qs]. Qed.

  (** Polynomial commitments *)
  Lemma searching_bpc_open s p coms pt : searching (K := K) both (Nat.log2 (length coms) + 1) (fun D t => bpc_open P E D t r2 s p coms pt).
  Proof.
    destruct pt as [x y], s as [ips ks]. unfold bpc_open. cbv zeta. pure_step. apply searching_after; [apply quiet_y_eval|]. intros ye _.
    apply searching_after; [apply quiet_unwrap|]. intros yc _. rewrite <- (Nat.add_0_r (Nat.log2 (length coms) + 1)).
    apply searching_bind; [exact (searching_tssm_prove _ _ _ (quiet_afgho_g1 P E r2) (quiet_identity _) (quiet_multiexp_ip _) ips (coms, _) _)|]. intros pf. pure_end.
  Qed.
  Lemma searching_bpc_verify v com pt e proof :
    searching (K := K) both (length (gp_steps (ts_gipa (op_ip proof))) + 1) (fun D t => bpc_verify P E D t r2 v com pt e proof).
  Proof.
    destruct pt as [x y]. unfold bpc_verify. rewrite <- (Nat.add_0_r (length (gp_steps (ts_gipa (op_ip proof))) + 1)).
    apply searching_bind; [apply searching_tssm_verify; qs|]. intros b. unfold kzg_verify. cbn [rbind]. pure_end.
  Qed.
  Theorem C99_bivariate s p coms pt v com pt' e proof :
    rarely_stuck (unusable K) (Nat.log2 (length coms) + 1) (fun D t => bpc_open P E D t r2 s p coms pt) /\
    rarely_stuck (unusable K) (length (gp_steps (ts_gipa (op_ip proof))) + 1) (fun D t => bpc_verify P E D t r2 v com pt' e proof).
  Proof. split; [apply both_stuck, searching_bpc_open|apply both_stuck, searching_bpc_verify]. Qed.
  Theorem C99_univariate s p coms z v d com z' e proof :
    rarely_stuck (unusable K) (Nat.log2 (length coms) + 1) (fun D t => upc_open P E D t r2 s p coms z) /\
    rarely_stuck (unusable K) (length (gp_steps (ts_gipa (op_ip proof))) + 1) (fun D t => upc_verify P E D t r2 v d com z' e proof).
  Proof.
    split; apply both_stuck.
    - unfold upc_open, parse_degrees_srs. apply searching_after; [quiet|]. intros [xd yd] _. apply searching_after; [apply quiet_form|]. intros bp _. apply searching_bpc_open.
    - unfold upc_verify. apply searching_after; [apply quiet_degrees|]. intros [xd yd] _. apply searching_bpc_verify.
  Qed.
  Lemma searching_tbpc_open ck p coms pt :
    searching (K := K) [Invertible] (Nat.log2 (length coms) + Nat.log2 (length (fst ck))) (fun D t => tbpc_open P E D t r1 r2 ck p coms pt).
  Proof.
    destruct pt as [x y], ck as [ck1 ck2]. unfold tbpc_open. cbn [fst]. pure_step. apply searching_after; [apply quiet_powers|]. intros px _. cbv zeta.
    apply searching_after; [apply quiet_y_eval|]. intros ye Hye. apply searching_after; [apply quiet_pedersen|]. intros yc _.
    apply searching_bind; [exact (searching_gssm_prove _ _ _ (quiet_afgho_g1 P E r2) (quiet_identity _) (quiet_multiexp_ip _) (coms, px) _)|]. intros second.
    apply searching_after; [apply quiet_powers|]. intros py _.
    assert (Hl : length ye = length ck1) by (unfold y_eval_coefficients in Hye; apply rmapM_ok_length in Hye; now rewrite Hye, seq_length).
    rewrite <- Hl, <- (Nat.add_0_r (Nat.log2 (length ye))).
    apply searching_bind; [refine (searching_gssm_prove (K := K) (MA := fmod K) p1 is_ (@scalar_ip K E) (quiet_pedersen (pG1 P) r1) (quiet_identity _) _ (ye, py) _); intros ? ?; apply quiet_scalar_ip|]. intros first. pure_end.
  Qed.
  Lemma searching_tbpc_verify ck com pt e proof :
    searching (K := K) [Invertible] (length (gp_steps (to_second proof)) + length (gp_steps (to_first proof))) (fun D t => tbpc_verify P E D t r1 r2 ck com pt e proof).
  Proof.
    destruct pt as [x y], ck as [ck1 ck2]. unfold tbpc_verify. apply searching_bind; [apply searching_gssm_verify; qs|]. intros b.
    rewrite <- (Nat.add_0_r (length (gp_steps (to_first proof)))). apply searching_bind; [apply searching_gssm_verify; qs|]. intros b'. pure_end.
  Qed.
  Theorem C99_transparent ck p coms pt com pt' e proof :
    rarely_stuck (no_inverse K) (Nat.log2 (length coms) + Nat.log2 (length (fst ck))) (fun D t => tbpc_open P E D t r1 r2 ck p coms pt) /\
    rarely_stuck (no_inverse K) (length (gp_steps (to_second proof)) + length (gp_steps (to_first proof))) (fun D t => tbpc_verify P E D t r1 r2 ck com pt' e proof).
  Proof. split; [apply inv_stuck, searching_tbpc_open|apply inv_stuck, searching_tbpc_verify]. Qed.
  Theorem C99_transparent_univariate ck p coms z com z' e proof :
    rarely_stuck (no_inverse K) (Nat.log2 (length coms) + Nat.log2 (length (fst ck))) (fun D t => tupc_open P E D t r1 r2 ck p coms z) /\
    rarely_stuck (no_inverse K) (length (gp_steps (to_second proof)) + length (gp_steps (to_first proof))) (fun D t => tupc_verify P E D t r1 r2 ck com z' e proof).
  Proof.
    split; apply inv_stuck.
    - unfold tupc_open, parse_degrees_ck. apply searching_after; [quiet|]. intros [xd yd] _. apply searching_after; [apply quiet_form|]. intros bp _. apply searching_tbpc_open.
    - unfold tupc_verify, parse_degrees_ck. apply searching_after; [quiet|]. intros [xd yd] _. apply searching_tbpc_verify.
  Qed.

  (** Groth16 aggregation *)
  Lemma quiet_ic bs : forall i inputs (rv : list K) g, g16_ic_loop P E i bs inputs rv g <> Loop.
  Proof.
    induction bs as [|b bs IH]; intros i inputs rv g; cbn [g16_ic_loop]; [discriminate|]. apply quiet_bind; [quiet|]. intros col _.
    apply quiet_bind; [apply quiet_scalar_ip|]. intros x _. apply IH.
  Qed.
  Theorem C99_groth16 s proofs v vk inputs proof :
    rarely_stuck (unusable K) (2 * Nat.log2 (length proofs) + 3) (fun D t => g16_aggregate P E D t r1 r2 s proofs) /\
    rarely_stuck (unusable K) (length (gp_steps (tp_gipa (ag_tipa_ab proof))) + length (gp_steps (ts_gipa (ag_tipa_c proof))) + 3)
      (fun D t => g16_verify P E D t r1 r2 v vk inputs proof).
  Proof.
    split; apply both_stuck.
    - unfold g16_aggregate. cbv zeta. destruct (get_commitment_keys s) as [k1 k2]. do 3 (apply searching_after; [apply quiet_pairing_ip|intros ? _]).
      apply (searching_le _ (1 + ((Nat.log2 (length proofs) + 1) + ((Nat.log2 (length proofs) + 1) + 0)))); [lia|].
      apply searching_bind; [apply searching_rand; right; now left|]. intros r. apply searching_after; [apply quiet_powers|]. intros rv _.
      apply searching_after; [apply quiet_pairing_ip|]. intros ab _. apply searching_after; [apply quiet_multiexp_ip|]. intros agg _.
      apply searching_after; [quiet|]. intros kr _. apply searching_after; [apply quiet_pairing_ip|]. intros ca' _. apply searching_after; [apply quiet_assert|]. intros _ _.
      apply searching_bind.
      + eapply searching_le; [|apply searching_tipa_prove; qs]. cbn [fst]. rewrite zipw_length, map_length.
        apply Nat.add_le_mono_r, Nat.log2_le_mono. lia.
      + intros pab. apply searching_bind; [|intros pc; pure_end].
        eapply searching_le; [|apply searching_tssm_prove; qs]. cbn [fst]. now rewrite map_length.
    - unfold g16_verify.
      apply (searching_le _ (1 + ((length (gp_steps (tp_gipa (ag_tipa_ab proof))) + 1) + ((length (gp_steps (ts_gipa (ag_tipa_c proof))) + 1) + 0)))); [lia|].
      apply searching_bind; [apply searching_rand; right; now left|]. intros r. apply searching_bind; [apply searching_tipa_verify; qs|]. intros b.
      apply searching_bind; [apply searching_tssm_verify; qs|]. intros b'. apply searching_pure. apply quiet_bind; [|discriminate].
      unfold g16_ppe, rdiv. apply quiet_bind; [quiet|]. intros rs _. cbv zeta. apply quiet_bind; [apply quiet_index|]. intros row _. apply quiet_bind; [apply quiet_assert|].
      intros _ _. apply quiet_bind; [apply quiet_powers|]. intros rv _. apply quiet_bind; [apply quiet_index|]. intros abc _. apply quiet_bind; [apply quiet_ic|]. discriminate.
  Qed.
End C99.

(** ** All digests of L bytes *)
Definition all_bytes : list N := map N.of_nat (seq 0 256).
Fixpoint byte_strings (L : nat) : list bytes :=
  match L with O => [[]] | S L => flat_map (fun x => map (cons x) (byte_strings L)) all_bytes end.
Lemma byte_strings_spec L y : In y (byte_strings L) <-> length y = L /\ (forall x, In x y -> (x < 256)%N).
Proof.
  assert (Hb : forall x, In x all_bytes <-> (x < 256)%N).
  { intros x. unfold all_bytes. rewrite in_map_iff. split.
    - intros [i [<- Hi]]. apply in_seq in Hi. lia.
    - intros Hx. exists (N.to_nat x). split; [apply N2Nat.id|]. apply in_seq. lia. }
  revert y. induction L as [|L IH]; intros y; cbn [byte_strings].
  - split; [intros [<-|[]]; split; [reflexivity|intros x []]|]. intros [H _]. destruct y; [now left|discriminate].
  - rewrite in_flat_map. split.
    + intros [x [Hx Hy]]. apply in_map_iff in Hy as [y' [<- Hy]]. apply IH in Hy as [H1 H2]. split; [cbn; congruence|].
      intros z [<-|Hz]; [now apply Hb|auto].
    + intros [Hl Hx]. destruct y as [|x y]; [discriminate|]. exists x. split; [apply Hb, Hx; now left|]. apply in_map, IH.
      split; [injection Hl; auto|]. intros z Hz. apply Hx. now right.
Qed.
Lemma byte_strings_length L : length (byte_strings L) = 256 ^ L.
Proof.
  induction L as [|L IH]; [reflexivity|]. cbn [byte_strings Nat.pow].
  assert (H : forall l, length (flat_map (fun x => map (cons x) (byte_strings L)) l) = length l * 256 ^ L).
  { induction l as [|x l IHl]; [reflexivity|]. cbn [flat_map length]. rewrite app_length, map_length. unfold bytes in *. rewrite IH, IHl. reflexivity. }
  rewrite H. unfold all_bytes. now rewrite map_length, seq_length.
Qed.
Lemma lsum_zero {A} (f : A -> nat) l : (forall a, In a l -> f a = 0) -> lsum (map f l) = 0.
Proof. induction l as [|a l IH]; intros H; [reflexivity|]. cbn [map lsum]. rewrite (H a (in_eq _ _)), IH; [reflexivity|]. intros x Hx. apply H. now right. Qed.
Lemma filter_map_length {A B} (p : B -> bool) (f : A -> B) l : length (filter p (map f l)) = length (filter (fun a => p (f a)) l).
Proof. induction l as [|a l IH]; [reflexivity|]. cbn [map filter]. destruct (p (f a)); cbn [length]; congruence. Qed.
Lemma zeros_count j m : length (filter (fun y => forallb (N.eqb 0) (firstn j y)) (byte_strings (j + m))) = 256 ^ m.
Proof.
  induction j as [|j IH].
  - rewrite <- byte_strings_length. change (0 + m) with m. clear.
    induction (byte_strings m) as [|y l IH]; [reflexivity|]. cbn [filter firstn forallb length]. cbn [firstn forallb] in IH. now rewrite IH.
  - cbn [Nat.add byte_strings]. rewrite filter_flat_map. unfold all_bytes. change (seq 0 256) with (0 :: seq 1 255). cbn [map lsum].
    rewrite filter_map_length. cbn [firstn forallb]. change (0 =? N.of_nat 0)%N with true. cbn [andb]. rewrite IH.
    rewrite lsum_zero; [lia|]. intros x Hx. apply in_map_iff in Hx as [i [<- Hi]]. apply in_seq in Hi. rewrite filter_map_length. cbn [forallb].
    assert (E : (0 =? N.of_nat i)%N = false) by (apply N.eqb_neq; lia). rewrite E. cbn [andb]. clear. induction (byte_strings (j + m)); auto.
Qed.
Lemma be_app l x : from_be_bytes (l ++ [x]) = (from_be_bytes l * 256 + x)%N.
Proof. unfold from_be_bytes. now rewrite fold_left_app. Qed.
Lemma be_zero l : from_be_bytes l = 0%N -> forallb (N.eqb 0) l = true.
Proof.
  induction l as [|x l IH] using rev_ind; [reflexivity|]. rewrite be_app, forallb_app. intros H. cbn [forallb].
  rewrite IH by lia. cbn [andb]. rewrite (proj2 (N.eqb_eq 0 x)) by lia. reflexivity.
Qed.
Lemma be_bound l : (forall x, In x l -> (x < 256)%N) -> (from_be_bytes l < 256 ^ N.of_nat (length l))%N.
Proof.
  induction l as [|x l IH] using rev_ind; intros H; [reflexivity|]. rewrite be_app, app_length, Nat2N.inj_add, N.pow_add_r.
  cbn [length]. change (256 ^ N.of_nat 1)%N with 256%N.
  assert (from_be_bytes l < 256 ^ N.of_nat (length l))%N by (apply IH; intros z Hz; apply H, in_app_iff; now left).
  assert (x < 256)%N by (apply H, in_app_iff; right; now left). nia.
Qed.
Lemma mul_le_cancel a b c : 0 < c -> a * c <= b * c -> a <= b.
Proof. intros Hc H. apply Nat.mul_le_mono_pos_r in H; auto. Qed.

(** With all digests of L >= 16 bytes, and no number below 2^128 but 0 zero in the field: the share is at most n / 2^(128 t). *)
Theorem C99_all_digests {K : field} {A} n (f : (bytes -> bytes) -> nat -> res A) L X D0 t :
  (forall c, (0 < c < 2 ^ 128)%N -> f_ofN (f := K) c <> f0) -> rarely_stuck (no_inverse K) n f -> 16 <= L -> NoDup X ->
  (forall q, 16 <= length (D0 q) /\ no_inverse K (D0 q) = false) -> (N.of_nat t <= 2 ^ 64)%N ->
  length (filter (fun D => still_running (f D t)) (tables X (byte_strings L) D0)) * (256 ^ 16) ^ t <= n * length (tables X (byte_strings L) D0).
Proof.
  intros HK Hf HL HX HD Ht. rewrite tables_length.
  assert (H := Hf X (byte_strings L) D0 t HX (fun y Hy => Nat.le_trans _ _ _ HL (Nat.eq_le_incl _ _ (eq_sym (proj1 (proj1 (byte_strings_spec L y) Hy))))) HD Ht).
  assert (Hb : length (filter (no_inverse K) (byte_strings L)) <= 256 ^ (L - 16)).
  { rewrite <- (zeros_count 16 (L - 16)). replace (16 + (L - 16)) with L by lia.
    assert (Hi : forall y, In y (byte_strings L) -> no_inverse K y = true -> forallb (N.eqb 0) (firstn 16 y) = true).
    { intros y Hy Hn. apply be_zero. apply byte_strings_spec in Hy as [Hl Hy]. unfold no_inverse in Hn. apply feqb_spec in Hn.
      destruct (N.eq_0_gt_0_cases (from_be_bytes (firstn 16 y))) as [E|E]; [exact E|]. exfalso. apply (HK (from_be_bytes (firstn 16 y))); [|exact Hn].
      split; [exact E|]. assert (Hlt : (from_be_bytes (firstn 16 y) < 256 ^ N.of_nat (length (firstn 16 y)))%N).
      { apply be_bound. intros x Hx. apply Hy. rewrite <- (firstn_skipn 16 y). apply in_app_iff. now left. }
      rewrite firstn_length, Nat.min_l in Hlt by lia. exact Hlt. }
    clear - Hi. revert Hi. induction (byte_strings L) as [|y l IHl]; intros Hi; [apply le_n|]. cbn [filter].
    specialize (IHl (fun z Hz => Hi z (in_cons _ _ _ Hz))). destruct (no_inverse K y) eqn:E.
    - rewrite (Hi y (in_eq _ _) E). cbn [length]. apply le_n_S, IHl.
    - destruct (forallb (N.eqb 0) (firstn 16 y)); cbn [length]; [apply Nat.le_le_succ_r|]; exact IHl. }
  assert (HB : length (byte_strings L) = 256 ^ 16 * 256 ^ (L - 16)) by (rewrite byte_strings_length, <- Nat.pow_add_r; f_equal; lia).
  apply (mul_le_cancel _ _ ((256 ^ (L - 16)) ^ t)).
  { apply Nat.neq_0_lt_0. apply Nat.pow_nonzero. apply Nat.pow_nonzero. discriminate. }
  assert (Hbt : length (filter (no_inverse K) (byte_strings L)) ^ t <= (256 ^ (L - 16)) ^ t) by (apply Nat.pow_le_mono_l, Hb).
  rewrite HB in H at 1. rewrite Nat.pow_mul_l in H. revert H Hbt.
  generalize (length (filter (fun D => still_running (f D t)) (tables X (byte_strings L) D0))) ((256 ^ 16) ^ t) ((256 ^ (L - 16)) ^ t)
    (length (filter (no_inverse K) (byte_strings L)) ^ t) (length (byte_strings L) ^ length X).
  intros v1 v2 v3 v4 v5 H Hbt. rewrite <- Nat.mul_assoc. eapply Nat.le_trans; [exact H|]. apply (Nat.mul_le_mono_l _ _ n) in Hbt.
  apply (Nat.mul_le_mono_r _ _ v5) in Hbt. lia.
Qed.
Print Assumptions C99_gipa_prove.
Print Assumptions C99_gipa_verify.
Print Assumptions C99_gipa_ssm.
Print Assumptions C99_tipa.
Print Assumptions C99_tipa_ssm.
Print Assumptions C99_bivariate.
Print Assumptions C99_univariate.
Print Assumptions C99_transparent.
Print Assumptions C99_transparent_univariate.
Print Assumptions C99_groth16.
Print Assumptions C99_all_digests.

(** The bound is attained: a proof of one step, two nonces, digests 0 and 7; of the four functions on the two queries one has no
    invertible challenge, 1 * 2^2 = 1 * 1^2 * 2^2. *)
Definition ex99_proof := mk_gipa_proof (K := ZP) (MA := ZM) (MB := ZM) [(ex_com, ex_com)] ((zq 1, zq 1) : ZM * ZM).
Definition ex99_f (D : bytes -> bytes) (t : nat) :=
  gipa_verify (ex_L ex_env1) (ex_R ex_env1) ex_T (pairing_ip ZPair ex_env1) D t (ex_ka, ex_kb, tt) ex_com ex99_proof.
Definition ex99_X : list bytes := map (fun i => gipa_hash_input (K := ZP) i (zq 0) ex_com ex_com) [0; 1].
Definition ex99_Y : list bytes := [repeat 0%N 16; repeat 0%N 15 ++ [7%N]].
Definition ex99_D0 : bytes -> bytes := fun _ => repeat 0%N 15 ++ [7%N].
Lemma ex99_nodup {A} (a b : A) : a <> b -> NoDup [a; b].
Proof. intros H. constructor; [intros [E|[]]; congruence|]. constructor; [intros []|constructor]. Qed.
Example C99_example :
  NoDup ex99_X /\ (forall y, In y ex99_Y -> 16 <= length y) /\ (forall q, 16 <= length (ex99_D0 q) /\ no_inverse ZP (ex99_D0 q) = false) /\
  length (tables ex99_X ex99_Y ex99_D0) = 4 /\ length (filter (no_inverse ZP) ex99_Y) = 1 /\ length (gp_steps ex99_proof) = 1 /\
  length (filter (fun D => still_running (ex99_f D 2)) (tables ex99_X ex99_Y ex99_D0)) = 1 /\
  length (filter (fun D => still_running (ex99_f D 1)) (tables ex99_X ex99_Y ex99_D0)) = 2 /\
  rarely_stuck (no_inverse ZP) 1 ex99_f.
Proof.
  split; [apply ex99_nodup; intros E; assert (H : nth 7 (gipa_hash_input (K := ZP) 0 (zq 0) ex_com ex_com) 9%N = nth 7 (gipa_hash_input (K := ZP) 1 (zq 0) ex_com ex_com) 9%N) by (now rewrite E); vm_compute in H; discriminate|].
  split; [intros y [<-|[<-|[]]]; vm_compute; auto|]. split; [intros q; split; [vm_compute; auto|vm_compute; reflexivity]|].
  split; [vm_compute; reflexivity|]. split; [vm_compute; reflexivity|]. split; [reflexivity|].
  split; [vm_compute; reflexivity|]. split; [vm_compute; reflexivity|].
  exact (proj1 (C99_gipa_verify ZPair ex_env1 ex_rand ex_rand (ex_ka, ex_kb, tt) ex_com ex99_proof (ex_ka, [], tt) ex_com
    (mk_gipa_proof [] ((zq 1, zq 1) : ZM * ZM)) ([], [], tt) ex_com (mk_gipa_proof [] ((zq 1, zq 1) : ZM * ZM)))).
Qed.

(** Searches for random elements: an aggregation of two proofs, one nonce, digests whose first byte is 7 (no element of the toy
    field) or 0 for its batching challenge, and a usable digest for every other query. *)
Definition ex99_agg (D : bytes -> bytes) (t : nat) := do s <- ex_srs 2; g16_aggregate ZPair ex_env D t ex_rand ex_rand s ex_pfs.
Definition ex99_gX : list bytes :=
  match ex_agg toy_digest ex_pfs with Ok (p, _) => [usize_be 0 ++ g16_payload ZPair (ag_com_a p) (ag_com_b p) (ag_com_c p)] | _ => [] end.
Definition ex99_gY : list bytes := [repeat 7%N 16; repeat 0%N 15 ++ [9%N]].
Example C99_example_groth16 : length ex99_gX = 1 /\ length (filter (unusable ZP) ex99_gY) = 1 /\ unusable ZP (ex99_D0 []) = false /\
  length (filter (fun D => still_running (ex99_agg D 1)) (tables ex99_gX ex99_gY ex99_D0)) = 1 /\
  length (filter (fun D => still_running (ex99_agg D 2)) (tables ex99_gX ex99_gY ex99_D0)) = 0.
Proof. vm_compute. repeat split. Qed.

(** A field in which no number below 2^128 is zero but 0: the rational numbers; a search there. *)
Require Import QArith Qcanon.
Definition Qc_beq (x y : Qc) : bool := if Qc_eq_dec x y then true else false.
Lemma Qc_beq_spec x y : Qc_beq x y = true <-> x = y.
Proof. unfold Qc_beq. destruct (Qc_eq_dec x y); split; congruence. Qed.
Definition QF : field := {|
  fcar := Qc; f0 := 0%Qc; f1 := 1%Qc; fadd := Qcplus; fmul := Qcmult; fsub := Qcminus; fopp := Qcopp; fdiv := Qcdiv; finv := Qcinv;
  feqb := Qc_beq; fser := fun _ => []; f_ofN := fun n => Q2Qc (inject_Z (Z.of_N n)); f_rand := fun _ => None;
  f_theory := Qcft; feqb_spec := Qc_beq_spec |}.
Lemma QF_ofN c : (0 < c)%N -> f_ofN (f := QF) c <> f0.
Proof.
  intros Hc E. change (Q2Qc (inject_Z (Z.of_N c)) = Q2Qc 0) in E. apply Q2Qc_eq_iff in E.
  unfold Qeq, inject_Z in E. cbn [Qnum Qden] in E. lia.
Qed.
Example C99_example_all : (forall c, (0 < c < 2 ^ 128)%N -> f_ofN (f := QF) c <> f0) /\
  rarely_stuck (no_inverse QF) 1 (fun D t => gipa_challenge (K := QF) (OA := mod_carrier (fmod QF)) (OB := mod_carrier (fmod QF)) (OT := mod_carrier (fmod QF)) D t 0 f0 (f0, f0, f0) (f0, f0, f0)).
Proof.
  split; [intros c [Hc _]; now apply QF_ofN|]. apply inv_stuck. apply searching_round. now left.
Qed.

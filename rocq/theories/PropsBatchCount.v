(** Property C117: batch verification of Groth16 proofs with scalars that the proofs do not depend on.  (With the fixed seed of
    the program the property fails: C63.) *)
Require Import List Arith NArith ZArith Lia Bool Field.
Import ListNotations.
Require Import Verif.Outcome Verif.Algebra Verif.Zp Verif.Rust Verif.Spec Verif.ListFacts Verif.Commitments Verif.Groth16 Verif.Batch
  Verif.GipaFacts Verif.Forking Verif.PropsBase Verif.Groth16Facts Verif.PropsGroth Verif.PropsBatch
  Verif.Pocklington Verif.PrimeFields Verif.PropsLevel Verif.PropsTrials.
Local Open Scope nat_scope.

(** ** A generator that returns a given sequence of numbers *)
Definition next_of : sampler (list N) N := fun l => (hd 0%N l, tl l).
Definition batch_with {P} (scalars : list N) (vk : g16_vk P) inputs proofs : res (option bool) :=
  batch_verify_proof P (fun _ => scalars) next_of (prepare_verifying_key vk) inputs proofs.

Lemma skipn_tl {A} : forall i (l : list A), tl (skipn i l) = skipn i (tl l).
Proof. induction i as [|i IH]; intros [|x l]; try reflexivity. cbn [skipn tl]. rewrite IH. destruct l; [now destruct i|reflexivity]. Qed.
Lemma next_of_nth : forall i (l : list N), nth_draw next_of l i = nth i l 0%N.
Proof.
  intros i l. unfold nth_draw. replace (Nat.iter i (fun s => snd (next_of s)) l) with (skipn i l).
  - unfold next_of. cbn [fst]. revert l. induction i as [|i IH]; intros [|x l]; try reflexivity. apply IH.
  - induction i as [|i IH]; [reflexivity|]. change (skipn (S i) l = snd (next_of (Nat.iter i (fun s => snd (next_of s)) l))). rewrite <- IH. cbn [next_of snd]. rewrite skipn_tl.
    destruct l; [now destruct i|reflexivity].
Qed.
Lemma rho_next P i (l : list N) : rho (P := P) (fun _ => l) next_of i = f_ofN (nth i l 0%N).
Proof. unfold rho. now rewrite next_of_nth. Qed.

(** ** Sequences without one position *)
Definition without {A} (i : nat) (l : list A) : list A := firstn i l ++ skipn (S i) l.
Lemma without_nth {A} (d : A) i l j : i < length l -> nth j (without i l) d = nth (if j <? i then j else S j) l d.
Proof.
  unfold without. intros Hi. assert (Hf : length (firstn i l) = i) by (rewrite firstn_length; lia).
  destruct (Nat.ltb_spec j i).
  - rewrite app_nth1 by lia. rewrite <- (firstn_skipn i l) at 2. rewrite app_nth1 by lia. reflexivity.
  - rewrite app_nth2 by lia. rewrite Hf. rewrite <- (firstn_skipn (S i) l) at 2.
    assert (Hf' : length (firstn (S i) l) = S i) by (rewrite firstn_length; lia). rewrite app_nth2 by lia. rewrite Hf'. reflexivity.
Qed.
Lemma without_length {A} i (l : list A) : i < length l -> length (without i l) = length l - 1.
Proof. intros Hi. unfold without. rewrite app_length, firstn_length, skipn_length. lia. Qed.
Lemma without_incl {A} i (l : list A) : incl (without i l) l.
Proof.
  intros x Hx. apply in_app_or in Hx as [Hx|Hx].
  - rewrite <- (firstn_skipn i l). apply in_or_app. now left.
  - rewrite <- (firstn_skipn (S i) l). apply in_or_app. now right.
Qed.
Lemma in_sequences {C} (Ch : list C) l : incl l Ch -> In l (sequences Ch (length l)).
Proof.
  induction l as [|c l IH]; intros H; [now left|]. cbn [length sequences]. apply in_flat_map. exists c. split; [apply H; now left|].
  apply in_map, IH. intros x Hx. apply H. now right.
Qed.
Lemma sequences_count {C} (Ch : list C) k : length (sequences Ch k) = length Ch ^ k.
Proof.
  induction k as [|k IH]; [reflexivity|]. cbn [sequences Nat.pow]. rewrite <- IH. generalize (sequences Ch k). intros S. clear.
  induction Ch as [|c Ch IH]; [reflexivity|]. cbn [flat_map length]. rewrite app_length, map_length, IH. lia.
Qed.
Lemma nodup_map_inj {A B} (f : A -> B) l : NoDup l -> (forall x y, In x l -> In y l -> f x = f y -> x = y) -> NoDup (map f l).
Proof.
  induction 1 as [|x l Hx Hl IH]; intros Hf; cbn [map]; constructor.
  - intros Hin. apply in_map_iff in Hin as (y & E & Hy). apply Hx. rewrite (Hf x y); [exact Hy|now left|now right|congruence].
  - apply IH. intros u v Hu Hv. apply Hf; now right.
Qed.

Lemma Forall2_of_nth {A B} (R : A -> B -> Prop) a b : forall l m, length l = length m ->
  (forall i, i < length l -> R (nth i l a) (nth i m b)) -> Forall2 R l m.
Proof.
  induction l as [|x l IH]; intros [|y m] Hl H; try discriminate; constructor.
  - apply (H 0). apply Nat.lt_0_succ.
  - apply IH; [now injection Hl|]. intros i Hi. apply (H (S i)). now apply -> Nat.succ_lt_mono.
Qed.

(** ** The count *)
Section Count.
  Context {P : pairing}.
  Implicit Types (vk : g16_vk P) (inputs : list (list (pK P))) (proofs : list (g16_proof P)).

  (** If one of n proofs is invalid, at most N^(n-1) of the N^n sequences of scalars from N candidates lead to acceptance. *)
  Theorem C117_few_sequences vk inputs proofs (Ch : list N) (L : list (list N)) :
    vk_gamma_abc_g1 vk <> [] -> length inputs = length proofs ->
    (exists i, i < length proofs /\ ~ g16_valid vk (nth i inputs []) (nth i proofs pf0)) ->
    (forall x y, In x Ch -> In y Ch -> f_ofN (f := pK P) x = f_ofN y -> x = y) ->
    NoDup L -> (forall l, In l L -> length l = length proofs /\ incl l Ch /\ batch_with l vk inputs proofs = Ok (Some true)) ->
    length L <= length Ch ^ (length proofs - 1).
  Proof.
    intros Hne Hl (i & Hi & Hbad) Hinj Hnd HL. rewrite <- sequences_count, <- (map_length (without i)).
    apply NoDup_incl_length.
    - apply nodup_map_inj; [exact Hnd|]. intros l l' Hin Hin' E. destruct (HL l Hin) as (Ll & Il & Al). destruct (HL l' Hin') as (Ll' & Il' & Al').
      assert (Ho : forall j, j <> i -> nth j l 0%N = nth j l' 0%N).
      { intros j Hj. destruct (Nat.lt_gt_cases j i) as [Hc _]. destruct (Hc Hj) as [Hlt|Hgt].
        - pose proof (without_nth 0%N i l j ltac:(lia)) as E1. pose proof (without_nth 0%N i l' j ltac:(lia)) as E2.
          assert (Eb : (j <? i) = true) by (now apply Nat.ltb_lt). rewrite Eb in E1, E2. congruence.
        - pose proof (without_nth 0%N i l (j - 1) ltac:(lia)) as E1. pose proof (without_nth 0%N i l' (j - 1) ltac:(lia)) as E2.
          assert (Eb : (j - 1 <? i) = false) by (apply Nat.ltb_ge; lia). rewrite Eb in E1, E2. replace (S (j - 1)) with j in E1, E2 by lia. congruence. }
      assert (Hii : nth i l 0%N = nth i l' 0%N).
      { destruct (N.eq_dec (nth i l 0%N) (nth i l' 0%N)) as [E0|E0]; [exact E0|]. exfalso. apply Hbad.
        apply (C63_few_scalars_partial _ _ P (fun _ => l) (fun _ => l') next_of next_of vk inputs proofs i Hne Hl Hi).
        - intros j Hj. rewrite !rho_next. f_equal. now apply Ho.
        - rewrite !rho_next. intros E1. apply E0. apply Hinj; [apply Il, nth_In; lia|apply Il', nth_In; lia|exact E1].
        - exact Al.
        - exact Al'. }
      apply (nth_ext l l' 0%N 0%N); [congruence|]. intros j _. destruct (Nat.eq_dec j i) as [->|Hj]; [exact Hii|now apply Ho].
    - intros w Hw. apply in_map_iff in Hw as (l & <- & Hin). destruct (HL l Hin) as (Ll & Il & _).
      replace (length proofs - 1) with (length (without i l)) by (rewrite without_length; lia). apply in_sequences.
      intros x Hx. apply Il. revert x Hx. apply without_incl.
  Qed.

  (** The bound is attained: if all other proofs are valid, the batch is accepted exactly for the sequences with zero at the
      place of the invalid one. *)
  Theorem C117_one_invalid vk inputs proofs i (l : list N) : vk_gamma_abc_g1 vk <> [] -> length inputs = length proofs -> i < length proofs ->
    (forall j, j < length proofs -> j <> i -> g16_valid vk (nth j inputs []) (nth j proofs pf0)) ->
    ~ g16_valid vk (nth i inputs []) (nth i proofs pf0) ->
    batch_with l vk inputs proofs = Ok (Some true) <-> f_ofN (f := pK P) (nth i l 0%N) = f0.
  Proof.
    intros Hne Hl Hi Hv Hbad. unfold batch_with. destruct (C62_batch_accepts_iff (fun _ => l) next_of vk inputs proofs Hne) as (b & -> & Hb).
    rewrite batch_defect in Hb by exact Hl. transitivity (b = true); [split; congruence|]. rewrite Hb.
    rewrite (big_ext _ _ (fun j => if Nat.eq_dec j i then f_ofN (nth i l 0%N) *m defect vk (nth i inputs []) (nth i proofs pf0) else m0)).
    - rewrite big_single by exact Hi. split.
      + intros H. apply mscale_integral in H as [H|H]; [exact H|]. exfalso. now apply Hbad, defect_valid.
      + intros ->. apply mscale_0_l.
    - intros j Hj. rewrite rho_next. destruct (Nat.eq_dec j i) as [->|Hji]; [reflexivity|].
      rewrite (proj2 (defect_valid _ _ _) (Hv j Hj Hji)). apply mscale_0_r.
  Qed.

  (** Proofs are accepted for every sequence of zeros and ones exactly when they are all valid. *)
  Theorem C117_all_sequences vk inputs proofs : vk_gamma_abc_g1 vk <> [] -> length inputs = length proofs ->
    f_ofN (f := pK P) 0%N = f0 -> f_ofN (f := pK P) 1%N = f1 ->
    (forall l, length l = length proofs -> Forall (fun x => (x < 2)%N) l -> batch_with l vk inputs proofs = Ok (Some true)) <->
    Forall2 (g16_valid vk) inputs proofs.
  Proof.
    intros Hne Hl E0 E1. split; [|intros HF l _ _; now apply C62_batch_complete]. intros H. apply (Forall2_of_nth _ [] pf0); [exact Hl|]. intros i Hi. rewrite Hl in Hi.
    set (l := map (fun j => if Nat.eq_dec j i then 1%N else 0%N) (seq 0 (length proofs))).
    assert (Hnth : forall j, j < length proofs -> nth j l 0%N = if Nat.eq_dec j i then 1%N else 0%N).
    { intros j Hj. unfold l. set (f := fun j => if Nat.eq_dec j i then 1%N else 0%N).
      rewrite (nth_indep _ 0%N (f 0)) by (now rewrite map_length, seq_length). rewrite map_nth, seq_nth by exact Hj. reflexivity. }
    pose proof (H l) as Hacc. unfold batch_with in Hacc. destruct (C62_batch_accepts_iff (fun _ => l) next_of vk inputs proofs Hne) as (b & Eb & Hb).
    rewrite Eb in Hacc. rewrite batch_defect in Hb by exact Hl. assert (Hb' : b = true).
    { assert (X : Ok (Some b) = Ok (Some true)); [|congruence]. apply Hacc; [unfold l; now rewrite map_length, seq_length|].
      apply Forall_forall. intros x Hx. apply in_map_iff in Hx as (j & <- & _). destruct (Nat.eq_dec j i); lia. }
    apply Hb in Hb'. rewrite (big_ext _ _ (fun j => if Nat.eq_dec j i then defect vk (nth i inputs []) (nth i proofs pf0) else m0)) in Hb'.
    - rewrite big_single in Hb' by exact Hi. now apply defect_valid.
    - intros j Hj. rewrite rho_next, Hnth by exact Hj. destruct (Nat.eq_dec j i) as [->|_]; [rewrite E1; apply mscale_1|rewrite E0; apply mscale_0_l].
  Qed.
End Count.
Print Assumptions C117_few_sequences.
Print Assumptions C117_one_invalid.
Print Assumptions C117_all_sequences.

(** *** In numbers: scalars of 128 bits in the scalar fields of BLS12-381 and BLS12-377 *)
Definition numbers_below (b : N) : list N := map N.of_nat (seq 0 (N.to_nat b)).
Lemma numbers_length b : N.of_nat (length (numbers_below b)) = b.
Proof. unfold numbers_below. rewrite map_length, seq_length. apply N2Nat.id. Qed.
Lemma in_numbers b x : In x (numbers_below b) <-> (x < b)%N.
Proof.
  unfold numbers_below. rewrite in_map_iff. split.
  - intros (i & <- & Hi). apply in_seq in Hi. lia.
  - intros Hx. exists (N.to_nat x). split; [lia|]. apply in_seq. lia.
Qed.
Theorem C117_level {P : pairing} (vk : g16_vk P) inputs proofs (L : list (list N)) : pK P = Fr381 \/ pK P = Fr377 ->
  vk_gamma_abc_g1 vk <> [] -> length inputs = length proofs ->
  (exists i, i < length proofs /\ ~ g16_valid vk (nth i inputs []) (nth i proofs pf0)) ->
  NoDup L -> (forall l, In l L -> length l = length proofs /\ Forall (fun x => (x < 2 ^ 128)%N) l /\ batch_with l vk inputs proofs = Ok (Some true)) ->
  (N.of_nat (length L) * 2 ^ 128 <= (2 ^ 128) ^ N.of_nat (length proofs))%N.
Proof.
  intros HK Hne Hl Hbad Hnd HL.
  assert (Ha : exists p k bits, ark_field (pK P) p k bits).
  { destruct HK as [->| ->]; [exists (Z.to_N r381), 32, 255; apply C107_bls12_381|exists (Z.to_N r377), 32, 253; apply C107_bls12_377]. }
  destruct Ha as (p & k & bits & [_ [Hp _] Hints _ _]). remember (2 ^ 128)%N as b eqn:Eb. clear Eb.
  assert (Hc : length L <= length (numbers_below b) ^ (length proofs - 1)).
  { apply (C117_few_sequences vk inputs proofs (numbers_below b) L Hne Hl Hbad).
    - intros x y Hx Hy. apply in_numbers in Hx, Hy. apply Hints; lia.
    - exact Hnd.
    - intros l Hin. destruct (HL l Hin) as (A & B & C). split; [exact A|]. split; [|exact C]. intros x Hx. apply in_numbers.
      eapply Forall_forall in B; [exact B|exact Hx]. }
  assert (Hn : 0 < length proofs) by (destruct Hbad as (i & Hi & _); lia).
  assert (Hc' : (N.of_nat (length L) <= b ^ N.of_nat (length proofs - 1))%N).
  { rewrite <- (numbers_length b) at 1. rewrite <- Nat2N.inj_pow. lia. }
  replace (N.of_nat (length proofs)) with (N.succ (N.of_nat (length proofs - 1))) by lia. rewrite N.pow_succ_r', N.mul_comm.
  apply N.mul_le_mono_l. exact Hc'.
Qed.
Print Assumptions C117_level.

(** *** An invalid proof in the example of C62: the second row is 9 instead of 1 *)
Example C117_hypotheses : vk_gamma_abc_g1 ex_vk <> [] /\ length [zl [3]%Z; zl [9]%Z] = length ex_pfs /\ length ex_pfs = 2 /\
  g16_valid ex_vk (zl [3]%Z) (nth 0 ex_pfs pf0) /\ ~ g16_valid ex_vk (zl [9]%Z) (nth 1 ex_pfs pf0).
Proof.
  split; [discriminate|]. split; [reflexivity|]. split; [reflexivity|]. split; [vm_compute; reflexivity|]. intros H. vm_compute in H. discriminate.
Qed.
Example C117_example :
  map (fun l => batch_with l ex_vk [zl [3]%Z; zl [9]%Z] ex_pfs) [[7; 0]; [0; 7]; [5; 6]; [0; 0]]%N =
  [Ok (Some true); Ok (Some false); Ok (Some false); Ok (Some true)].
Proof. vm_compute. reflexivity. Qed.

Example C117_example_381 : pK P381 = Fr381 /\ vk_gamma_abc_g1 ex108_vk <> [] /\ length ex108_pfs = 2 /\
  ~ g16_valid ex108_vk [fq 9] (nth 1 ex108_pfs pf0) /\
  map (fun l => batch_with l ex108_vk [[fq 3]; [fq 9]] ex108_pfs) [[2 ^ 127; 0]; [2 ^ 127; 1]]%N = [Ok (Some true); Ok (Some false)].
Proof.
  split; [reflexivity|]. split; [discriminate|]. split; [reflexivity|]. split; [|reflexivity].
  intros H. apply (f_equal (fun x : Fr381 => proj1_sig x)) in H. vm_compute in H. discriminate.
Qed.

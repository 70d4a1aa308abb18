(** Properties C70-C73: the circuits of the Groth16 programs. *)
Require Import List Arith NArith ZArith Lia Bool Field.
Import ListNotations.
Require Import Verif.Outcome Verif.Algebra Verif.Zp Verif.ZpBig Verif.Rust Verif.Spec Verif.ListFacts Verif.RustFacts Verif.Commitments
  Verif.Poly Verif.Gipa Verif.Tipa Verif.Groth16 Verif.Batch Verif.GrothMain Verif.Circuits Verif.CircuitFacts Verif.GipaFacts Verif.PropsBase Verif.PropsGipa Verif.PropsTipa
  Verif.Groth16Facts Verif.PropsGroth Verif.PropsBatch Verif.PropsGrothMain.

(** ** Specification: rank-1 constraints.  [x] are the public inputs, [w] the witness. *)
Section R1csSpec.
  Context {K : field}.
  Definition assigned (x w : list K) (v : var) : K :=
    match v with VOne => f1 | VInst i => nth i x f0 | VWit i => nth i w f0 end.
  Definition lc_value (x w : list K) (l : lincomb K) : K := fold_right (fun t acc => fst t *f assigned x w (snd t) +f acc) f0 l.
  Definition r1cs_sat (cons : list (lincomb K * lincomb K * lincomb K)) (x w : list K) : Prop :=
    Forall (fun c => let '(a, b, c) := c in lc_value x w a *f lc_value x w b = lc_value x w c) cons.
  Definition total (l : list K) : K := fold_right fadd f0 l.
End R1csSpec.

(** ** C70: TestCircuit *)
Section Test.
  Context {P : pairing}.
  Notation K := (pK P).
  Add Field KF70 : (f_theory (pK P)).

  Lemma new_inputs_eq (vs : list K) : forall s, new_inputs s vs =
    (map VInst (seq (length (cs_instance s)) (length vs)), mk_cs (cs_instance s ++ vs) (cs_witness s) (cs_constraints s)).
  Proof.
    induction vs as [|v vs IH]; intros s; cbn [new_inputs length seq map].
    - rewrite app_nil_r. now destruct s.
    - cbn [new_input]. rewrite IH. cbn [cs_instance cs_witness cs_constraints]. rewrite app_length, <- app_assoc, Nat.add_1_r. reflexivity.
  Qed.

  Definition test_constraint (n : nat) : lincomb K * lincomb K * lincomb K :=
    ((f1, VInst n) :: map (fun t => (fopp (fst t), snd t)) ((f1, VWit 0) :: map (fun i => (f1, VInst i)) (seq 0 n)), [(f1, VOne)], []).

  Lemma fold_app {A B} (f : A -> B) (l : list A) : forall acc, fold_left (fun acc x => acc ++ [f x]) l acc = acc ++ map f l.
  Proof. induction l as [|x l IH]; intros acc; cbn; [now rewrite app_nil_r|]. rewrite IH, <- app_assoc. reflexivity. Qed.

  Lemma test_synth_eq (c : test_circuit P) : test_synth c =
    mk_cs (tc_inputs c ++ [tc_sum c]) [tc_witness c] [test_constraint (length (tc_inputs c))].
  Proof.
    unfold test_synth. rewrite new_inputs_eq. cbn [cs_instance cs_witness cs_constraints cs_empty app length].
    cbn [new_input new_witness enforce cs_instance cs_witness cs_constraints app length].
    rewrite (fold_app (fun x => (f1 : K, x))). rewrite map_map. reflexivity.
  Qed.

  (** The public inputs are the inputs and the sum; the constraints only depend on the number of inputs, so that keys made
      for the default circuit fit. *)
  Theorem C70_statement (c : test_circuit P) : cs_instance (test_synth c) = tc_inputs c ++ [tc_sum c] /\ length (cs_witness (test_synth c)) = 1.
  Proof. now rewrite test_synth_eq. Qed.
  Theorem C70_shape (c c' : test_circuit P) : length (tc_inputs c) = length (tc_inputs c') ->
    cs_constraints (test_synth c) = cs_constraints (test_synth c').
  Proof. intros H. rewrite !test_synth_eq. cbn [cs_constraints]. now rewrite H. Qed.

  Lemma lc_value_inst (x w : list K) : forall n k, lc_value x w (map (fun t => (fopp (fst t), snd t)) (map (fun i => (f1, VInst i)) (seq k n))) =
    fopp (total (map (fun i => nth i x f0) (seq k n))).
  Proof.
    induction n as [|n IH]; intros k; cbn [seq map lc_value fold_right total fst snd assigned]; [ring|].
    fold (lc_value x w (map (fun t => (fopp (fst t), snd t)) (map (fun i => (f1, VInst i)) (seq (S k) n)))).
    rewrite IH. fold (total (map (fun i => nth i x f0) (seq (S k) n))). ring.
  Qed.
  Lemma map_nth_seq0 {A} (l : list A) d : map (fun i => nth i l d) (seq 0 (length l)) = l.
  Proof.
    apply nth_ext with (d := d) (d' := d); [now rewrite map_length, seq_length|]. intros i Hi. rewrite map_length, seq_length in Hi.
    rewrite nth_indep with (d' := nth 0 l d) by now rewrite map_length, seq_length. rewrite (map_nth (fun i => nth i l d)), seq_nth by exact Hi. reflexivity.
  Qed.

  (** For all public inputs and all witnesses, honest or not: the constraints hold exactly when the last public input is
      the witness plus the sum of the others. *)
  Theorem C70_relation (c : test_circuit P) (x : list K) (s w : K) : length x = length (tc_inputs c) ->
    r1cs_sat (cs_constraints (test_synth c)) (x ++ [s]) [w] <-> s = w +f total x.
  Proof.
    intros Hl. rewrite test_synth_eq. cbn [cs_constraints]. rewrite <- Hl.
    assert (E : lc_value (x ++ [s]) [w] (fst (fst (test_constraint (length x)))) = s -f (w +f total x)).
    { unfold test_constraint. cbn [fst lc_value fold_right map assigned snd nth].
      fold (lc_value (x ++ [s]) [w] (map (fun t => (fopp (fst t), snd t)) (map (fun i => (f1, VInst i)) (seq 0 (length x))))).
      rewrite lc_value_inst. rewrite app_nth2, Nat.sub_diag by lia. cbn [nth].
      rewrite (map_ext_in (fun i => nth i (x ++ [s]) f0) (fun i => nth i x f0)) by (intros i Hi; apply in_seq in Hi; apply app_nth1; lia).
      rewrite map_nth_seq0. ring. }
    unfold r1cs_sat. rewrite Forall_cons_iff. unfold test_constraint in E |- *. cbn [fst] in E. cbv beta iota. rewrite E.
    cbn [lc_value fold_right fst snd assigned].
    split.
    - intros [H _]. replace s with ((s -f (w +f total x)) *f (f1 *f f1 +f f0) +f (w +f total x)) by ring. rewrite H. ring.
    - intros ->. split; [ring|constructor].
  Qed.

  (** The circuit's own assignment satisfies its constraints exactly when its sum is right; ... *)
  Corollary C70_honest (c : test_circuit P) :
    r1cs_sat (cs_constraints (test_synth c)) (cs_instance (test_synth c)) (cs_witness (test_synth c)) <->
    tc_sum c = tc_witness c +f total (tc_inputs c).
  Proof.
    rewrite <- (C70_relation c (tc_inputs c) (tc_sum c) (tc_witness c) eq_refl). rewrite test_synth_eq at 2 3. reflexivity.
  Qed.
  (** ... and every public input has exactly one witness: a proof for this circuit says nothing about them. *)
  Corollary C70_every_statement (c : test_circuit P) (x : list K) : length x = length (tc_inputs c) + 1 ->
    exists w, forall w', r1cs_sat (cs_constraints (test_synth c)) x [w'] <-> w' = w.
  Proof.
    intros Hl. destruct (exists_last (l := x)) as [y [s ->]]; [intros ->; cbn in Hl; lia|]. rewrite app_length in Hl. cbn in Hl.
    exists (s -f total y). intros w'. rewrite C70_relation by lia. split; intros ->; ring.
  Qed.
End Test.
Print Assumptions C70_statement.
Print Assumptions C70_shape.
Print Assumptions C70_relation.
Print Assumptions C70_honest.
Print Assumptions C70_every_statement.
(** inputs 3, 5 and witness 4: the sum 12 satisfies the constraint, 13 does not *)
Definition ex_test (s : Z) : test_circuit ZPair := mk_test_circuit (P := ZPair) [zq 3; zq 5] (zq 4) (zq s).
Example C70_example : cs_constraints (test_synth (ex_test 12)) =
    [([(zq 1, VInst 2); (zq 100, VWit 0); (zq 100, VInst 0); (zq 100, VInst 1)], [(zq 1, VOne)], [])] /\
  tc_sum (ex_test 12) = fadd (f := ZP) (tc_witness (ex_test 12)) (total (K := ZP) (tc_inputs (ex_test 12))) /\
  tc_sum (ex_test 13) <> fadd (f := ZP) (tc_witness (ex_test 13)) (total (K := ZP) (tc_inputs (ex_test 13))).
Proof.
  split; [vm_compute; reflexivity|]. split; [vm_compute; reflexivity|]. intros H. apply (f_equal zp_val) in H. vm_compute in H. discriminate.
Qed.

(** ** C71: the Blake2s circuits and their public inputs *)
Definition is_hash (h : bytes) : Prop := length h = 32 /\ is_bytes h.

Lemma skipn_skipn_ {A} n : forall m (l : list A), skipn n (skipn m l) = skipn (m + n) l.
Proof. induction m as [|m IH]; intros l; [reflexivity|]. destruct l; [now rewrite !skipn_nil|]. cbn. apply IH. Qed.
Lemma chunks_fuel_nth {A} size : 0 < size -> forall fuel (l : list A) i, length l <= fuel ->
  nth i (chunks_fuel fuel size l) [] = firstn size (skipn (i * size) l).
Proof.
  intros Hs. induction fuel as [|fuel IH]; intros l i Hl.
  - destruct l; [|cbn in Hl; lia]. cbn. rewrite skipn_nil, firstn_nil. now destruct i.
  - cbn [chunks_fuel]. destruct l as [|x l]; [rewrite skipn_nil, firstn_nil; now destruct i|].
    destruct i as [|i]; [reflexivity|]. cbn [nth]. rewrite IH by (rewrite skipn_length; cbn [length] in *; lia).
    rewrite skipn_skipn_. reflexivity.
Qed.
Lemma chunks_fuel_count {A} size : 0 < size -> forall fuel (l : list A), length l <= fuel ->
  length (chunks_fuel fuel size l) = (length l + size - 1) / size.
Proof.
  intros Hs. induction fuel as [|fuel IH]; intros l Hl.
  - destruct l; [|cbn in Hl; lia]. cbn. now rewrite Nat.div_small by lia.
  - cbn [chunks_fuel]. destruct l as [|x l]; [cbn; now rewrite Nat.div_small by lia|].
    set (m := x :: l) in *. assert (0 < length m) by (cbn; lia). clearbody m. cbn [length]. rewrite IH by (rewrite skipn_length; lia).
    rewrite skipn_length. destruct (Nat.le_gt_cases size (length m)) as [H1|H1].
    + replace (length m + size - 1) with ((length m - size + size - 1) + 1 * size) by lia. rewrite Nat.div_add by lia. lia.
    + replace (length m - size) with 0 by lia. rewrite (Nat.div_small (0 + size - 1)) by lia.
      replace (length m + size - 1) with ((length m - 1) + 1 * size) by lia. rewrite Nat.div_add, Nat.div_small by lia. reflexivity.
Qed.

Lemma rmapM_map {A B C} (f : B -> res C) (g : A -> B) l : rmapM (fun x => f (g x)) l = rmapM f (map g l).
Proof. induction l as [|x l IH]; cbn; [reflexivity|]. now rewrite IH. Qed.
Lemma map_combine_fst {A B} (l : list A) : forall (r : list B), length l = length r -> map fst (combine l r) = l.
Proof. induction l; intros [|y r] H; cbn in *; try lia; [reflexivity|]. f_equal. apply IHl. lia. Qed.
Lemma map_combine_snd {A B} (l : list A) : forall (r : list B), length l = length r -> map snd (combine l r) = r.
Proof. induction l; intros [|y r] H; cbn in *; try lia; [reflexivity|]. f_equal. apply IHl. lia. Qed.
Lemma Forall2_len {A B} (Rel : A -> B -> Prop) x y : Forall2 Rel x y -> length x = length y.
Proof. induction 1; cbn; congruence. Qed.
Lemma Forall2_slice_to {A} (Rel : A -> A -> Prop) x x' n : Forall2 Rel x x' ->
  match slice_to x n, slice_to x' n with Ok y, Ok y' => Forall2 Rel y y' | Panic, Panic => True | _, _ => False end.
Proof.
  intros H. unfold slice_to. rewrite <- (Forall2_len _ _ _ H). destruct (n <=? length x); [|exact I].
  revert n. induction H; intros [|n]; cbn; constructor; auto.
Qed.
Lemma Forall2_slice_from {A} (Rel : A -> A -> Prop) x x' n : Forall2 Rel x x' ->
  match slice_from x n, slice_from x' n with Ok y, Ok y' => Forall2 Rel y y' | Panic, Panic => True | _, _ => False end.
Proof.
  intros H. unfold slice_from. rewrite <- (Forall2_len _ _ _ H). destruct (n <=? length x); [|exact I].
  revert n. induction H; intros [|n]; cbn; try constructor; auto.
Qed.
Lemma bytes_eqb_spec a b : bytes_eqb a b = true <-> a = b.
Proof. unfold bytes_eqb. destruct (list_eq_dec N.eq_dec a b); split; congruence. Qed.

Section Blake71.
  Context {K : field} (F : prime_repr K) (HF : prime_repr_ok F).
  Hypothesis Hfit : 0 < fit_bytes F.

  (** The public inputs of a byte string: element i has the bytes i * fit ... as its little-endian digits; the gadget gets
      back exactly the bytes. *)
  Theorem C71_encode (b : bytes) : is_bytes b -> exists l, to_field_elements F b = Ok l /\
    length l = (length b + fit_bytes F - 1) / fit_bytes F /\
    (forall i, i < length l -> into_bigint F (nth i l f0) = from_le_bytes (firstn (fit_bytes F) (skipn (i * fit_bytes F) b))) /\
    input_vec_bytes F (length b) l = Ok b.
  Proof using HF Hfit.
    intros Hb. eexists. split; [apply to_fe_ok; exact Hfit|]. rewrite map_length. split; [apply chunks_fuel_count; auto|]. split.
    - intros i Hi. rewrite nth_indep with (d' := f_ofN (from_le_bytes [])) by now rewrite map_length.
      rewrite (map_nth (fun c => f_ofN (from_le_bytes c)) _ []). unfold bytes in *. rewrite (chunks_fuel_nth (fit_bytes F) Hfit (length b) b i) by auto.
      rewrite (into_ofN F HF), N.mod_small; [reflexivity|]. eapply N.lt_le_trans; [apply from_le_lt|].
      + apply Forall_forall. intros y Hy. eapply Forall_forall in Hb; [exact Hb|].
        rewrite <- (firstn_skipn (i * fit_bytes F) b). apply in_or_app. right.
        rewrite <- (firstn_skipn (fit_bytes F) (skipn _ b)). apply in_or_app. now left.
      + eapply N.le_trans; [|apply fit_modulus; auto]. apply N.pow_le_mono_r; [lia|]. rewrite firstn_length. lia.
    - apply to_fe_bytes; auto. apply to_fe_ok; exact Hfit.
  Qed.

  (** Different strings of equal length have different public inputs *)
  Theorem C71_injective (b b' : bytes) l : is_bytes b -> is_bytes b' -> length b = length b' ->
    to_field_elements F b = Ok l -> to_field_elements F b' = Ok l -> b = b'.
  Proof using HF Hfit.
    intros Hb Hb' Hl H H'. apply (to_fe_bytes F HF Hfit) in H; auto. apply (to_fe_bytes F HF Hfit) in H'; auto. rewrite Hl in H. congruence.
  Qed.

  Variable blake : bytes -> bytes.

  (** With the public inputs of [hs], the constraints hold for the witnesses [ws] exactly when each is a preimage. *)
  Theorem C71_relation (hs : list bytes) ls ws : Forall is_hash hs -> rmapM (to_field_elements F) hs = Ok ls -> length ws = length hs ->
    exists ok, many_holds F blake (concat ls) ws = Ok ok /\ (ok = true <-> Forall2 (fun w h => blake w = h) ws hs).
  Proof using HF Hfit.
    intros Hh. revert ls ws. induction Hh as [|h hs [Hl Hb] Hh IH]; intros ls ws Hls Hw.
    - injection Hls as <-. destruct ws; [|discriminate]. exists true. split; [reflexivity|]. split; auto.
    - destruct ws as [|w ws]; [discriminate|]. cbn [rmapM] in Hls. apply rbind_ok in Hls as [l [H1 Hls]]. apply rbind_ok in Hls as [ls' [H2 Hls]].
      injection Hls as <-. destruct (IH ls' ws H2 ltac:(cbn in Hw; lia)) as [ok [H3 H4]].
      pose proof (to_fe_length F Hfit h l H1) as Hc. rewrite Hl in Hc. pose proof (to_fe_bytes F HF Hfit h l Hb H1) as Hd. rewrite Hl in Hd.
      cbn [concat many_holds]. rewrite slice_to_app, slice_from_app by exact Hc. cbn [rbind]. rewrite Hd. cbn [rbind]. rewrite H3. cbn [rbind].
      eexists. split; [reflexivity|]. rewrite andb_true_iff, bytes_eqb_spec, H4. split.
      + intros [-> H]. constructor; auto.
      + intros H. inversion H; subst. auto.
  Qed.

  Lemma rmapM_to_fe hs : exists ls, rmapM (to_field_elements F) hs = Ok ls.
  Proof using Hfit.
    induction hs as [|h hs [ls IH]]; [now exists []|]. cbn [rmapM]. rewrite (to_fe_ok F Hfit). cbn [rbind]. rewrite IH. cbn [rbind]. eauto.
  Qed.

  (** The assignment of the circuit: its public inputs are those the verifier computes from the outputs; it satisfies the
      constraints exactly when the outputs are the hashes of the inputs. *)
  Theorem C71_honest (ins outs : list bytes) : length ins = length outs -> Forall is_hash outs ->
    exists ls ok, rmapM (to_field_elements F) outs = Ok ls /\ many_synth F (ins, outs) = Ok (concat ls, ins) /\
      many_holds F blake (concat ls) ins = Ok ok /\ (ok = true <-> outs = map blake ins).
  Proof using HF Hfit.
    intros Hl Ho. destruct (rmapM_to_fe outs) as [ls Hls].
    destruct (C71_relation outs ls ins Ho Hls Hl) as [ok [H1 H2]]. exists ls, ok. split; [exact Hls|]. split.
    - unfold many_synth. cbn [fst snd]. rewrite (rmapM_map (input_vec_values F) snd), map_combine_snd by exact Hl.
      change (input_vec_values F) with (to_field_elements F). rewrite Hls. cbn [rbind]. now rewrite map_combine_fst.
    - split; [exact H1|]. rewrite H2. clear - Hl. revert outs Hl. induction ins as [|i ins IH]; intros [|o outs] Hl; cbn in Hl; try lia.
      + split; auto.
      + cbn [map]. split.
        * intros H. inversion H; subst. f_equal. apply IH; auto.
        * intros [= -> ->]. constructor; [reflexivity|]. apply IH; [now rewrite map_length|reflexivity].
  Qed.
  (** Without an input for it an output is left out of the circuit. *)
  Theorem C71_zip (ins outs extra : list bytes) : length ins = length outs -> many_synth F (ins, outs ++ extra) = many_synth F (ins, outs).
  Proof using.
    clear Hfit. intros Hl. unfold many_synth. cbn [fst snd]. replace (combine ins (outs ++ extra)) with (combine ins outs); [reflexivity|].
    revert outs Hl. induction ins as [|i ins IH]; intros [|o outs] Hl; cbn in *; try lia; [reflexivity|]. f_equal. apply IH. lia.
  Qed.

  (** The bits above the bytes are dropped: the constraints do not tell apart public inputs with equal low bytes. *)
  Definition same_low (a a' : K) : Prop := (into_bigint F a mod 256 ^ N.of_nat (fit_bytes F) = into_bigint F a' mod 256 ^ N.of_nat (fit_bytes F))%N.
  Lemma same_low_bytes a a' : same_low a a' -> le_bytes (fit_bytes F) (into_bigint F a) = le_bytes (fit_bytes F) (into_bigint F a').
  Proof using.
    clear Hfit. unfold same_low. intros H. rewrite <- !from_le_le in H. apply (f_equal (le_bytes (fit_bytes F))) in H.
    rewrite !le_from_le in H by (try apply le_bytes_is; rewrite le_bytes_length; lia). rewrite !le_bytes_length, Nat.sub_diag in H. cbn [repeat] in H.
    now rewrite !app_nil_r in H.
  Qed.
  Lemma same_low_input len x x' : Forall2 same_low x x' -> input_vec_bytes F len x = input_vec_bytes F len x'.
  Proof using.
    intros H. unfold input_vec_bytes. f_equal. induction H as [|a a' x x' Ha H IH]; [reflexivity|]. cbn [flat_map].
    rewrite (same_low_bytes a a' Ha), IH. reflexivity.
  Qed.
  Theorem C71_same_low x x' ws : Forall2 same_low x x' -> many_holds F blake x ws = many_holds F blake x' ws.
  Proof using.
    revert x x'. induction ws as [|w ws IH]; intros x x' H; [reflexivity|]. cbn [many_holds].
    pose proof (Forall2_slice_to same_low x x' (input_vec_len F 32) H) as H1. pose proof (Forall2_slice_from same_low x x' (input_vec_len F 32) H) as H2.
    destruct (slice_to x _), (slice_to x' _); try contradiction; [|reflexivity]. destruct (slice_from x _), (slice_from x' _); try contradiction; [|reflexivity].
    cbn [rbind]. rewrite (same_low_input 32 _ _ H1). destruct (input_vec_bytes F 32 _); [|reflexivity..]. cbn [rbind]. now rewrite (IH _ _ H2).
  Qed.

  (** [a] with the bit above the bytes set: another element with the same bytes *)
  Definition lifted (a : K) : K := f_ofN (into_bigint F a + 256 ^ N.of_nat (fit_bytes F))%N.
  Lemma lifted_spec a : (2 * 256 ^ N.of_nat (fit_bytes F) <= pr_modulus F)%N -> (into_bigint F a < 256 ^ N.of_nat (fit_bytes F))%N ->
    same_low a (lifted a) /\ (256 ^ N.of_nat (fit_bytes F) <= into_bigint F (lifted a))%N.
  Proof using HF.
    clear Hfit. intros H2 Ha. unfold same_low, lifted. rewrite (into_ofN F HF). rewrite (N.mod_small (_ + _) (pr_modulus F)) by lia.
    assert (H0 : (256 ^ N.of_nat (fit_bytes F) <> 0)%N) by (apply N.pow_nonzero; lia).
    replace (into_bigint F a + 256 ^ N.of_nat (fit_bytes F))%N with (into_bigint F a + 1 * 256 ^ N.of_nat (fit_bytes F))%N at 1 by lia.
    rewrite N.mod_add by exact H0. split; [reflexivity|lia].
  Qed.
  Lemma encoded_low b l a : is_bytes b -> to_field_elements F b = Ok l -> In a l -> (into_bigint F a < 256 ^ N.of_nat (fit_bytes F))%N.
  Proof using HF Hfit.
    intros Hb Hl Ha. destruct (C71_encode b Hb) as (l' & H1 & _ & H2 & _). rewrite Hl in H1. injection H1 as <-.
    apply (In_nth _ _ f0) in Ha as [i [Hi <-]]. rewrite (H2 i Hi). eapply N.lt_le_trans; [apply from_le_lt|].
    - apply Forall_forall. intros y Hy. eapply Forall_forall in Hb; [exact Hb|].
      rewrite <- (firstn_skipn (i * fit_bytes F) b). apply in_or_app. right.
      rewrite <- (firstn_skipn (fit_bytes F) (skipn _ b)). apply in_or_app. now left.
    - apply N.pow_le_mono_r; [lia|]. rewrite firstn_length. lia.
  Qed.
  (** The circuit accepts public inputs that are not those of any hash. *)
  Theorem C71_other_inputs_refuted w : (2 * 256 ^ N.of_nat (fit_bytes F) <= pr_modulus F)%N -> is_hash (blake w) ->
    exists l l', to_field_elements F (blake w) = Ok l /\ length l' = length l /\ l' <> l /\
      many_holds F blake l' [w] = Ok true /\ (forall h, is_hash h -> to_field_elements F h <> Ok l').
  Proof using HF Hfit.
    intros H2 [Hl Hb]. destruct (C71_encode _ Hb) as (l & H1 & Hc & _). exists l.
    destruct l as [|a l].
    { exfalso. rewrite Hl in Hc. cbn [length] in Hc. symmetry in Hc. apply Nat.div_small_iff in Hc; lia. }
    destruct (lifted_spec a H2 (encoded_low _ _ a Hb H1 (or_introl eq_refl))) as [Hs Hh].
    exists (lifted a :: l). split; [exact H1|]. split; [reflexivity|].
    assert (Hno : forall h, is_hash h -> to_field_elements F h <> Ok (lifted a :: l)).
    { intros h [_ Hhb] E. pose proof (encoded_low _ _ _ Hhb E (or_introl eq_refl)). lia. }
    split; [intros E; apply (Hno (blake w)); [split; auto|congruence]|]. split; [|exact Hno].
    rewrite <- (C71_same_low (a :: l)).
    - destruct (C71_relation [blake w] [a :: l] [w]) as [ok [E1 E2]]; [constructor; [split; auto|constructor]|cbn [rmapM]; now rewrite H1|reflexivity|].
      cbn [concat] in E1. rewrite app_nil_r in E1. rewrite E1. f_equal. apply E2. constructor; [reflexivity|constructor].
    - constructor; [exact Hs|]. clear. induction l; constructor; [reflexivity|auto].
  Qed.
End Blake71.
Print Assumptions C71_encode.
Print Assumptions C71_injective.
Print Assumptions C71_relation.
Print Assumptions C71_honest.
Print Assumptions C71_zip.
Print Assumptions C71_same_low.
Print Assumptions C71_other_inputs_refuted.

(** *** The field with 262147 elements (19 bits): two bytes per element, three bytes in the representation *)
Definition R262147 : prime_repr F262147 := mk_prime_repr (K := F262147) 262147%N (fun a => Z.to_N (zm_val _ a)) 3.
Lemma R262147_ok : prime_repr_ok R262147.
Proof.
  constructor.
  - intros x. change (Z.to_N (zm_val _ x) < 262147)%N. pose proof (zm_range _ prime_262147 x). lia.
  - intros x. apply zm_eq. cbn [f_ofN F262147 ZF into_bigint R262147]. rewrite zm_val_of. pose proof (zm_range _ prime_262147 x).
    rewrite Z2N.id by lia. apply zm_mod.
  - intros n. cbn [f_ofN F262147 ZF into_bigint R262147 pr_modulus]. rewrite zm_val_of. rewrite Z2N.inj_mod by lia. now rewrite N2Z.id.
  - cbn. lia.
Qed.
(** a toy hash with 32 bytes of output *)
Definition ex_blake (b : bytes) : bytes := map (fun i => (fold_left (fun a x => a * 7 + x + N.of_nat i) b 5 mod 256)%N) (seq 0 32).
Lemma ex_blake_hash b : is_hash (ex_blake b).
Proof.
  split; [unfold ex_blake; now rewrite map_length|]. apply Forall_forall. intros x Hx. apply in_map_iff in Hx as [i [<- _]]. apply N.mod_lt. lia.
Qed.
Example C71_hypotheses : fit_bytes R262147 = 2 /\ (2 * 256 ^ N.of_nat (fit_bytes R262147) <= pr_modulus R262147)%N /\ is_hash (ex_blake [1; 2]%N).
Proof. split; [reflexivity|]. split; [vm_compute; discriminate|apply ex_blake_hash]. Qed.
(** the first two inputs 3 and 4 with their hashes; the same with the outputs swapped *)
Definition ex_many (ins outs : list bytes) : res bool :=
  do (x, ws) <- many_synth R262147 (ins, outs); many_holds R262147 ex_blake x ws.
Example C71_example : ex_many [[3%N]; [4%N]] (map ex_blake [[3%N]; [4%N]]) = Ok true /\ ex_many [[3%N]; [4%N]] (map ex_blake [[4%N]; [3%N]]) = Ok false.
Proof. vm_compute. split; reflexivity. Qed.
(** the sizes for BLS12-377 Fr and BW6-761 Fr: 253 and 377 bits; 31 and 47 bytes; 32 bytes of hash are two elements of
    the first, whose 64 bytes are two elements of the second *)
Definition bls12_377_r : N := 8444461749428370424248824938781546531375899335154063827935233455917409239041.
Definition bw6_761_r : N := 258664426012969094010652733694893533536393512754914660539884262666720468348340822774968888139573360124440321458177.
Example C71_sizes : forall (K : field) i,
  let B := mk_prime_repr (K := K) bls12_377_r i 32 in let W := mk_prime_repr (K := K) bw6_761_r i 48 in
  modulus_bits B = 253 /\ fit_bytes B = 31 /\ element_bytes B = pr_bytes B /\ input_vec_len B 32 = 2 /\
  (2 * 256 ^ N.of_nat (fit_bytes B) <= pr_modulus B)%N /\ (pr_modulus B + 256 ^ N.of_nat (fit_bytes B) <= 256 ^ N.of_nat (pr_bytes B))%N /\
  modulus_bits W = 377 /\ fit_bytes W = 47 /\ input_vec_len W 64 = 2.
Proof. intros K i. cbv zeta. repeat apply conj; vm_compute; try reflexivity; intros H; discriminate H. Qed.

(** ** C72: the circuit that verifies Groth16 proofs *)
Lemma app_inj_len {A} (l1 : list A) : forall l2 r1 r2, l1 ++ r1 = l2 ++ r2 -> length l1 = length l2 -> l1 = l2 /\ r1 = r2.
Proof.
  induction l1 as [|x l1 IH]; intros [|y l2] r1 r2 E Hl; try discriminate; [auto|]. cbn in *. injection E as -> E.
  destruct (IH l2 r1 r2 E ltac:(lia)) as [-> ->]. auto.
Qed.
Section Agg72.
  Context {P Q : pairing} (F : prime_repr (pK P)) (G : prime_repr (pK Q)) (HF : prime_repr_ok F) (HG : prime_repr_ok G).
  Hypothesis HfF : 0 < fit_bytes F.
  Hypothesis HfG : 0 < fit_bytes G.
  (** the representation has no spare bytes (as for 253 bits in four words) *)
  Hypothesis Hel : element_bytes F = pr_bytes F.

  Lemma bytes_pos : 0 < pr_bytes F.
  Proof using HfF Hel.
    clear HfG. rewrite <- Hel. unfold fit_bytes in HfF. unfold element_bytes.
    assert (8 <= modulus_bits F - 1) by (destruct (Nat.le_gt_cases 8 (modulus_bits F - 1)); [auto|rewrite Nat.div_small in HfF; lia]).
    apply Nat.div_str_pos. lia.
  Qed.
  Lemma element_le_is a : is_bytes (element_le_bytes P F a).
  Proof using. apply le_bytes_is. Qed.
  Lemma element_le_length a : length (element_le_bytes P F a) = pr_bytes F.
  Proof using. apply le_bytes_length. Qed.

  Lemma blocks_length (bl : list bytes) k : Forall (fun b => length b = k) bl -> length (concat bl) = k * length bl.
  Proof using. clear HfF HfG Hel. induction 1 as [|b bl Hb H IH]; cbn [concat length]; [lia|]. rewrite app_length, Hb, IH. lia. Qed.
  Lemma blocks_is (bl : list bytes) : Forall is_bytes bl -> is_bytes (concat bl).
  Proof using. induction 1; cbn [concat]; [constructor|]. apply Forall_app. auto. Qed.

  Lemma blocks_decode (bl : list bytes) x : Forall is_bytes bl -> Forall (fun b => length b = pr_bytes F) bl -> length bl = input_vec_len F 32 ->
    to_field_elements G (concat bl) = Ok x -> length x = input_vec_len G (agg_bytes P F) /\
      agg_decode P Q F G x = Ok (map (fun b => f_ofN (from_le_bytes b)) bl).
  Proof using HG HfF HfG Hel.
    intros Hb Hl Hn Hx. pose proof (blocks_length bl _ Hl) as Hc. rewrite Hn in Hc. fold (agg_bytes P F) in Hc.
    split; [now rewrite (to_fe_length G HfG _ _ Hx), Hc|]. unfold agg_decode. rewrite <- Hc. rewrite (to_fe_bytes G HG HfG _ _ (blocks_is bl Hb) Hx).
    cbn [rbind]. rewrite Hel, chunks_ok by apply bytes_pos. cbn [rbind]. now rewrite chunks_fuel_blocks by (auto using bytes_pos).
  Qed.

  Lemma decode_hash (h : bytes) l x : length h = 32 -> to_field_elements F h = Ok l -> to_field_elements G (flat_map (element_le_bytes P F) l) = Ok x ->
    length x = input_vec_len G (agg_bytes P F) /\ agg_decode P Q F G x = Ok l.
  Proof using HF HG HfF HfG Hel.
    intros Hh Hl Hx. rewrite flat_map_concat_map in Hx. apply blocks_decode in Hx.
    - destruct Hx as [H1 ->]. split; [exact H1|]. f_equal. rewrite map_map. rewrite <- (map_id l) at 2. apply map_ext. intros a.
      unfold element_le_bytes. rewrite from_le_le, N.mod_small; [apply (ofN_into F HF)|].
      eapply N.lt_le_trans; [apply (into_lt F HF)|apply (modulus_bytes F HF)].
    - apply Forall_forall. intros b Hb. apply in_map_iff in Hb as [a [<- _]]. apply element_le_is.
    - apply Forall_forall. intros b Hb. apply in_map_iff in Hb as [a [<- _]]. apply element_le_length.
    - rewrite map_length. rewrite (to_fe_length F HfF h l Hl). now rewrite Hh.
  Qed.

  (** *** Agreement of circuit and verifier *)
  Lemma agg_loop (l : list bytes) : forall acc, exists ls, rmapM (to_field_elements G) l = Ok ls /\ agg_input_loop Q G l acc = Ok (acc ++ concat ls).
  Proof using HfG.
    induction l as [|b l IH]; intros acc; [exists []; cbn; now rewrite app_nil_r|]. cbn [rmapM agg_input_loop]. rewrite (to_fe_ok G HfG). cbn [rbind].
    set (y := map _ _). destruct (IH (acc ++ y)) as [ls [-> ->]]. exists (y :: ls). cbn [rbind concat]. now rewrite app_assoc.
  Qed.
  (** For all hashes and proofs: the circuit is generated exactly when there are as many hashes as proofs, and then its
      public inputs are those the verifier computes from the hashes. *)
  Theorem C72_inputs (hs : list bytes) (pfs : list (g16_proof P)) : exists x, agg_verifier_input P Q F G hs = Ok x /\
    agg_synth P Q F G hs pfs = if length hs =? length pfs then Ok x else Panic.
  Proof using HfF HfG.
    unfold agg_verifier_input, agg_synth. destruct (rmapM_to_fe F HfF hs) as [ls Hls]. rewrite Hls. cbn [rbind].
    destruct (agg_loop (map (fun h => flat_map (element_le_bytes P F) h) ls) []) as [xs [H1 H2]]. exists (concat xs). split; [exact H2|].
    match goal with |- context [rmapM ?f ls] => replace (rmapM f ls) with (Ok xs) by (rewrite <- H1; symmetry; apply (rmapM_map (to_field_elements G) (fun h => flat_map (element_le_bytes P F) h))) end.
    cbn [rbind].
    assert (El : length xs = length hs).
    { apply rmapM_ok_length in H1. apply rmapM_ok_length in Hls. rewrite map_length in H1. congruence. }
    rewrite El. destruct (length hs =? length pfs); reflexivity.
  Qed.

  (** *** The relation *)
  Lemma verify_one_iff (vk : g16_vk P) l pf : length l + 1 = length (vk_gamma_abc_g1 vk) ->
    exists ok, g16_verify_one P vk l pf = Ok ok /\ (ok = true <-> g16_valid vk l pf).
  Proof using.
    clear HfF HfG Hel. intros Hl. unfold g16_verify_one. rewrite Hl, Nat.eqb_refl. cbn [rassert rbind].
    rewrite batch_input_eq by (destruct (vk_gamma_abc_g1 vk); [cbn in Hl; lia|discriminate]). cbn [rbind]. eexists. split; [reflexivity|]. apply meqb_spec.
  Qed.
  (** With the public inputs of the hashes the constraints hold exactly when each proof is a valid Groth16 proof for the
      elements of its hash. *)
  Theorem C72_relation (vk : g16_vk P) (hs : list bytes) ls x pfs : Forall is_hash hs -> rmapM (to_field_elements F) hs = Ok ls ->
    Forall (fun l => length l + 1 = length (vk_gamma_abc_g1 vk)) ls -> agg_synth P Q F G hs pfs = Ok x ->
    exists ok, agg_holds P Q F G vk x pfs = Ok ok /\ (ok = true <-> Forall2 (g16_valid vk) ls pfs).
  Proof using HF HG HfF HfG Hel.
    intros Hh Hls Hfit Hx. unfold agg_synth in Hx. rewrite Hls in Hx. cbn [rbind] in Hx. apply rbind_ok in Hx as [xs [Hxs Hx]].
    apply rbind_ok in Hx as [u [Ha Hx]]. injection Hx as <-. assert (Hlen : length xs = length pfs).
    { destruct (Nat.eqb_spec (length xs) (length pfs)); [auto|discriminate]. } clear Ha u.
    revert ls xs pfs Hls Hfit Hxs Hlen. induction Hh as [|h hs [Hl Hb] Hh IH]; intros ls xs pfs Hls Hfit Hxs Hlen.
    - injection Hls as <-. injection Hxs as <-. destruct pfs; [|discriminate]. exists true. split; [reflexivity|]. split; auto.
    - cbn [rmapM] in Hls. apply rbind_ok in Hls as [l [H1 Hls]]. apply rbind_ok in Hls as [ls' [H2 Hls]]. injection Hls as <-.
      cbn [rmapM] in Hxs. apply rbind_ok in Hxs as [y [H3 Hxs]]. apply rbind_ok in Hxs as [xs' [H4 Hxs]]. injection Hxs as <-.
      destruct pfs as [|pf pfs]; [discriminate|]. inversion Hfit as [|? ? Hf1 Hf2]; subst. destruct (IH ls' xs' pfs H2) as [ok [H5 H6]]; auto.
      destruct (decode_hash h l y Hl H1 H3) as [Hy Hd]. destruct (verify_one_iff vk l pf) as [ok1 [H7 H8]]; auto.
      cbn [concat agg_holds]. rewrite slice_to_app, slice_from_app by exact Hy. cbn [rbind]. rewrite Hd. cbn [rbind]. rewrite H7. cbn [rbind].
      rewrite H5. cbn [rbind]. eexists. split; [reflexivity|]. rewrite andb_true_iff, H8, H6. split.
      + intros [? ?]. constructor; auto.
      + intros H. inversion H; subst. auto.
  Qed.

  (** *** Different hashes have different public inputs *)
  Theorem C72_injective (hs hs' : list bytes) x : Forall is_hash hs -> Forall is_hash hs' ->
    agg_verifier_input P Q F G hs = Ok x -> agg_verifier_input P Q F G hs' = Ok x -> hs = hs'.
  Proof using HF HG HfF HfG Hel.
    assert (Hpos : 0 < input_vec_len G (agg_bytes P F)).
    { unfold input_vec_len. rewrite chunks_fuel_count by (auto; rewrite repeat_length; lia). rewrite repeat_length. apply Nat.div_str_pos.
      assert (0 < agg_bytes P F); [|lia]. unfold agg_bytes. apply Nat.mul_pos_pos; [apply bytes_pos|]. unfold input_vec_len.
      rewrite chunks_fuel_count by (auto; rewrite repeat_length; lia). rewrite repeat_length. apply Nat.div_str_pos. lia. }
    assert (Hrep : forall hs x, Forall is_hash hs -> agg_verifier_input P Q F G hs = Ok x ->
      exists xs, x = concat xs /\ Forall2 (fun h y => length y = input_vec_len G (agg_bytes P F) /\ exists l, agg_decode P Q F G y = Ok l /\ to_field_elements F h = Ok l) hs xs).
    { clear hs hs' x. intros hs x Hh Hx. unfold agg_verifier_input in Hx. apply rbind_ok in Hx as [ls [Hls Hx]].
      destruct (agg_loop (map (fun h => flat_map (element_le_bytes P F) h) ls) []) as [xs [H1 H2]]. rewrite H2 in Hx. injection Hx as <-. cbn [app].
      exists xs. split; [reflexivity|]. clear H2. revert ls xs Hls H1. induction Hh as [|h hs [Hl Hb] Hh IH]; intros ls xs Hls H1.
      - injection Hls as <-. injection H1 as <-. constructor.
      - cbn [rmapM] in Hls. apply rbind_ok in Hls as [l [E1 Hls]]. apply rbind_ok in Hls as [ls' [E2 Hls]]. injection Hls as <-.
        cbn [map rmapM] in H1. apply rbind_ok in H1 as [y [E3 H1]]. apply rbind_ok in H1 as [xs' [E4 H1]]. injection H1 as <-.
        destruct (decode_hash h l y Hl E1 E3) as [Hy Hd]. constructor; [split; [exact Hy|eauto]|]. eapply IH; eauto. }
    intros Hh Hh' H H'. destruct (Hrep hs x Hh H) as [xs [-> HX]]. destruct (Hrep hs' _ Hh' H') as [xs' [E HX']]. clear H H' Hrep.
    revert hs' xs' Hh' E HX'. revert Hh. induction HX as [|h y hs xs [Hy [l [Hd Hl]]] HX IH]; intros Hh hs' xs' Hh' E HX'.
    - destruct HX' as [|h' y' hs' xs' [Hy' _] HX']; [reflexivity|]. apply (f_equal (@length _)) in E. cbn [concat] in E. rewrite app_length in E. cbn in E. lia.
    - destruct HX' as [|h' y' hs' xs' [Hy' [l' [Hd' Hl']]] HX'].
      { apply (f_equal (@length _)) in E. cbn [concat] in E. rewrite app_length in E. cbn in E. lia. }
      cbn [concat] in E. assert (Ey : y = y' /\ concat xs = concat xs').
      { apply app_inj_len; [exact E|congruence]. }
      destruct Ey as [-> Ex]. inversion Hh as [|? ? [Hh1 Hh2] Hh3]; subst. inversion Hh' as [|? ? [Hh1' Hh2'] Hh3']; subst.
      rewrite Hd in Hd'. injection Hd' as ->. f_equal; [|eapply IH; eauto].
      apply (C71_injective F HF HfF h h' l'); auto. congruence.
  Qed.

  (** *** The public inputs are not unique: with the first element of the hash replaced by itself plus the modulus of the
      inner field, the same proofs are accepted. *)
  Definition wrapped (l : list (pK P)) : bytes :=
    match l with [] => [] | a :: l => le_bytes (pr_bytes F) (into_bigint F a + pr_modulus F) ++ flat_map (element_le_bytes P F) l end.
  Theorem C72_other_inputs_refuted (vk : g16_vk P) (h : bytes) l pf :
    (pr_modulus F + 256 ^ N.of_nat (fit_bytes F) <= 256 ^ N.of_nat (pr_bytes F))%N ->
    is_hash h -> to_field_elements F h = Ok l -> length l + 1 = length (vk_gamma_abc_g1 vk) -> g16_valid vk l pf ->
    exists x x', agg_verifier_input P Q F G [h] = Ok x /\ agg_holds P Q F G vk x [pf] = Ok true /\
      to_field_elements G (wrapped l) = Ok x' /\ x' <> x /\ agg_holds P Q F G vk x' [pf] = Ok true.
  Proof using HF HG HfF HfG Hel.
    intros Hroom [Hl Hb] H1 Hvk Hv. destruct l as [|a l].
    { exfalso. apply (to_fe_length F HfF) in H1. unfold input_vec_len in H1. rewrite chunks_fuel_count in H1 by (auto; rewrite repeat_length; lia).
      rewrite repeat_length, Hl in H1. cbn [length] in H1. symmetry in H1. apply Nat.div_small_iff in H1; lia. }
    set (bl := map (element_le_bytes P F) (a :: l)). set (bl' := le_bytes (pr_bytes F) (into_bigint F a + pr_modulus F) :: map (element_le_bytes P F) l).
    assert (Hlow : (into_bigint F a < 256 ^ N.of_nat (fit_bytes F))%N) by (apply (encoded_low F HF HfF h (a :: l)); auto; now left).
    assert (Hm : (0 < pr_modulus F)%N) by (pose proof (into_lt F HF a); lia).
    assert (Hbl : Forall is_bytes bl /\ Forall (fun b => length b = pr_bytes F) bl).
    { split; apply Forall_forall; intros b Hb'; apply in_map_iff in Hb' as [y [<- _]]; [apply element_le_is|apply element_le_length]. }
    assert (Hbl' : Forall is_bytes bl' /\ Forall (fun b => length b = pr_bytes F) bl').
    { destruct Hbl as [A B]. unfold bl in A, B. cbn [map] in A, B. inversion A; subst. inversion B; subst. unfold bl'.
      split; constructor; auto; [apply le_bytes_is|apply le_bytes_length]. }
    pose proof (to_fe_length F HfF _ _ H1) as Hc. rewrite Hl in Hc. cbn [length] in Hc.
    assert (Ex : exists x, to_field_elements G (concat bl) = Ok x) by (eexists; apply to_fe_ok; exact HfG). destruct Ex as [x Hx].
    assert (Ex' : exists x', to_field_elements G (concat bl') = Ok x') by (eexists; apply to_fe_ok; exact HfG). destruct Ex' as [x' Hx'].
    assert (Hn : length bl = input_vec_len F 32) by (unfold bl; rewrite map_length; exact Hc).
    assert (Hn' : length bl' = input_vec_len F 32) by (unfold bl'; cbn [length]; rewrite map_length; exact Hc).
    destruct (blocks_decode bl x) as [Lx Dx]; try tauto. destruct (blocks_decode bl' x') as [Lx' Dx']; try tauto.
    assert (El : forall l0, map (fun b => f_ofN (from_le_bytes b)) (map (element_le_bytes P F) l0) = l0).
    { intros l0. rewrite map_map. rewrite <- (map_id l0) at 2. apply map_ext. intros y.
      unfold element_le_bytes. rewrite from_le_le, N.mod_small; [apply (ofN_into F HF)|].
      eapply N.lt_le_trans; [apply (into_lt F HF)|apply (modulus_bytes F HF)]. }
    assert (E1 : map (fun b => f_ofN (from_le_bytes b)) bl = a :: l) by apply (El (a :: l)).
    assert (Ea : from_le_bytes (le_bytes (pr_bytes F) (into_bigint F a + pr_modulus F)) = (into_bigint F a + pr_modulus F)%N) by (rewrite from_le_le, N.mod_small; lia).
    assert (E2 : map (fun b => f_ofN (from_le_bytes b)) bl' = a :: l).
    { unfold bl'. cbn [map]. rewrite El, Ea. f_equal. rewrite <- (ofN_into F HF (f_ofN _)), (into_ofN F HF).
      replace (into_bigint F a + pr_modulus F)%N with (into_bigint F a + 1 * pr_modulus F)%N by lia.
      rewrite N.mod_add, N.mod_small by (try lia; apply (into_lt F HF)). apply (ofN_into F HF). }
    rewrite E1 in Dx. rewrite E2 in Dx'. destruct (verify_one_iff vk (a :: l) pf Hvk) as [ok [Hok Hiff]]. rewrite (proj2 Hiff Hv) in Hok.
    assert (Hold : forall y, length y = input_vec_len G (agg_bytes P F) -> agg_decode P Q F G y = Ok (a :: l) -> agg_holds P Q F G vk y [pf] = Ok true).
    { intros y Ly Dy. cbn [agg_holds].
      assert (S1 : slice_to y (input_vec_len G (agg_bytes P F)) = Ok y) by (rewrite <- (app_nil_r y) at 1; now apply slice_to_app).
      assert (S2 : slice_from y (input_vec_len G (agg_bytes P F)) = Ok []) by (rewrite <- (app_nil_r y); now apply slice_from_app).
      rewrite S1, S2. cbn [rbind].
      rewrite Dy. cbn [rbind]. rewrite Hok. reflexivity. }
    exists x, x'. split.
    { unfold agg_verifier_input. cbn [rmapM]. rewrite H1. cbn [rbind map].
      assert (Ef : flat_map (element_le_bytes P F) (a :: l) = concat bl) by apply flat_map_concat_map.
      rewrite Ef. cbn [agg_input_loop]. rewrite Hx. reflexivity. }
    split; [apply Hold; auto|]. split; [unfold wrapped; rewrite flat_map_concat_map; exact Hx'|]. split; [|apply Hold; auto].
    intros ->. assert (Eb : concat bl' = concat bl).
    { destruct Hbl as [A B], Hbl' as [A' B']. apply (C71_injective G HG HfG _ _ x); auto using blocks_is. now rewrite !(blocks_length _ (pr_bytes F)), Hn, Hn' by auto. }
    unfold bl, bl' in Eb. cbn [map concat] in Eb. apply app_inv_tail in Eb. apply (f_equal from_le_bytes) in Eb. rewrite Ea in Eb.
    unfold element_le_bytes in Eb. rewrite from_le_le, N.mod_small in Eb; lia.
  Qed.
End Agg72.
Print Assumptions C72_inputs.
Print Assumptions C72_relation.
Print Assumptions C72_injective.
Print Assumptions C72_other_inputs_refuted.

(** *** A run over the field with 262147 elements: a hash is 16 elements, whose 48 bytes are 24 public inputs *)
Definition zf1 (n : Z) : F262147 := zm_of 262147 n.
Definition ex_vk72 : g16_vk P262147 :=
  mk_g16_vk (P := P262147) (zf1 2) (zf1 3) (zf1 5) (zf1 7) (map (fun i => zf1 (Z.of_nat i + 1)) (seq 0 17)).
Definition ex_prove72 (row : list F262147) : g16_proof P262147 :=
  let ic := match batch_input P262147 (vk_gamma_abc_g1 ex_vk72) row with Ok x => x | _ => zf1 0 end in
  mk_g16_proof (P := P262147) (zm_add _ (zm_add _ (zm_mul _ (zf1 2) (zf1 3)) (zm_mul _ ic (zf1 5))) (zm_mul _ (zf1 4) (zf1 7))) (zf1 1) (zf1 4).
Definition ex_agg (hs hs' : list bytes) : res (nat * bool) :=
  do ls <- rmapM (to_field_elements R262147) hs';
  let pfs := map ex_prove72 ls in
  do x <- agg_synth P262147 P262147 R262147 R262147 hs pfs;
  do x' <- agg_verifier_input P262147 P262147 R262147 R262147 hs;
  do _ <- rassert (forallb (fun p => zm_eqb _ (fst p) (snd p)) (combine x x'));
  do ok <- agg_holds P262147 P262147 R262147 R262147 ex_vk72 x pfs;
  Ok (length x, ok).
Example C72_example : ex_agg (map ex_blake [[1%N]; [2%N]]) (map ex_blake [[1%N]; [2%N]]) = Ok (48, true) /\
  ex_agg (map ex_blake [[1%N]; [2%N]]) (map ex_blake [[1%N]; [3%N]]) = Ok (48, false) /\
  ex_agg (map ex_blake [[1%N]; [2%N]]) (map ex_blake [[1%N]]) = Panic /\
  element_bytes R262147 = pr_bytes R262147 /\ (pr_modulus R262147 + 256 ^ N.of_nat (fit_bytes R262147) <= 256 ^ N.of_nat (pr_bytes R262147))%N.
Proof. repeat apply conj; vm_compute; try reflexivity. intros H; discriminate H. Qed.
(** the same proof with the public inputs of the hash and with others *)
Definition ex_wrapped : res (bool * bool * bool) :=
  do l <- to_field_elements R262147 (ex_blake [9%N]);
  do x <- agg_verifier_input P262147 P262147 R262147 R262147 [ex_blake [9%N]];
  do x' <- to_field_elements R262147 (wrapped (P := P262147) R262147 l);
  do ok <- agg_holds P262147 P262147 R262147 R262147 ex_vk72 x [ex_prove72 l];
  do ok' <- agg_holds P262147 P262147 R262147 R262147 ex_vk72 x' [ex_prove72 l];
  Ok (ok, ok', forallb (fun p => zm_eqb _ (fst p) (snd p)) (combine x x')).
Example C72_wrapped_example : ex_wrapped = Ok (true, true, false).
Proof. vm_compute. reflexivity. Qed.

(** ** C73: the programs with the circuits.  Groth16 only has to be complete for circuits whose constraints are satisfied
    by their own assignment; what the circuits mean is no longer assumed. *)
Lemma snark_complete_impl {R P C} (S : snark R P C) (inputs inputs' : C -> list (pK P)) (sat sat' : C -> Prop) (like like' : C -> C -> Prop) :
  (forall c0 c, like' c0 c -> like c0 c /\ inputs c = inputs' c) -> (forall c0 c, like' c0 c -> like' c0 c0) ->
  (forall c0 c, like' c0 c -> sat' c -> sat c) -> snark_complete S inputs sat like -> snark_complete S inputs' sat' like'.
Proof.
  intros Hi Hr Hs H c0 rng Hl. destruct (Hi _ _ Hl) as [Hl0 E0]. destruct (H c0 rng Hl0) as (pk & rng' & H1 & H2 & H3). exists pk, rng'.
  split; [exact H1|]. rewrite E0 in H2. split; [exact H2|]. intros c rng1 Hlc Hsc. destruct (Hi _ _ Hlc) as [Hlc' Ec].
  destruct (H3 c rng1 Hlc' (Hs _ _ Hlc Hsc)) as (H4 & pf & rng2 & H5 & H6). rewrite Ec, E0 in H4. split; [exact H4|]. exists pf, rng2. rewrite Ec in H6. auto.
Qed.

Section Programs73.
  Context {R : Type} {P : pairing}.
  Notation K := (pK P).
  Variables (E : penv) (D : bytes -> bytes) (fuel : nat) (rs : sampler R (pK P)) (r1 : sampler R (pG1 P)) (r2 : sampler R (pG2 P)).
  Hypothesis HE : 1 <= threads E.
  Hypothesis HD : digest16 D.
  Hypothesis HL0 : draws_end K D fuel.
  Hypothesis HL1 : rounds_end (mod_carrier (pGT P)) (mod_carrier (pGT P)) (identity_output (pGT P)) D fuel.
  Hypothesis HL2 : rounds_end (mod_carrier (pGT P)) (mod_carrier (fmod K)) (identity_output (pG1 P)) D fuel.
  Hypothesis HC : good_challenges K D fuel.

  (** *** The example *)
  Definition cs_satisfied (s : cs K) : Prop := r1cs_sat (cs_constraints s) (cs_instance s) (cs_witness s).
  (** the same constraints and the same number of variables *)
  Definition cs_like (s0 s : cs K) : Prop := cs_constraints s0 = cs_constraints s /\
    length (cs_instance s0) = length (cs_instance s) /\ length (cs_witness s0) = length (cs_witness s).
  Lemma test_snark_complete (TS : snark R P (test_circuit P)) :
    snark_complete TS (fun c => cs_instance (test_synth c)) (fun c => cs_satisfied (test_synth c)) (fun c0 c => cs_like (test_synth c0) (test_synth c)) ->
    snark_complete TS test_inputs test_sat test_like.
  Proof using.
    apply snark_complete_impl.
    - intros c0 c Hl. split; [|apply C70_statement]. unfold test_like in Hl. split; [now apply C70_shape|].
      destruct (C70_statement c0) as [-> ->], (C70_statement c) as [-> ->]. rewrite !app_length. cbn [length]. auto.
    - intros c0 c Hl. reflexivity.
    - intros c0 c _ Hs. apply C70_honest. exact Hs.
  Qed.
  Theorem C73_example_complete (TS : snark R P (test_circuit P)) :
    snark_complete TS (fun c => cs_instance (test_synth c)) (fun c => cs_satisfied (test_synth c)) (fun c0 c => cs_like (test_synth c0) (test_synth c)) ->
    forall m k rng, g16_example_main P E D fuel rs r1 r2 TS m (2 ^ S k) rng = Ok tt.
  Proof using HE HD HL0 HL1 HL2 HC.
    intros HT m k rng. apply C68_example_complete; auto. now apply test_snark_complete.
  Qed.

  (** *** The benchmark: hash inputs and outputs are 32 bytes *)
  Context {Q : pairing} (F : prime_repr (pK P)) (G : prime_repr (pK Q)) (HF : prime_repr_ok F) (HG : prime_repr_ok G).
  Hypothesis HfF : 0 < fit_bytes F.
  Hypothesis HfG : 0 < fit_bytes G.
  Hypothesis Hel : element_bytes F = pr_bytes F.
  Variable blake : bytes -> bytes.
  Definition b32 : Type := { h : bytes | is_hash h }.
  Definition raw (h : b32) : bytes := proj1_sig h.
  Hypothesis Hblake : forall b, is_hash b -> is_hash (blake b).
  Definition blake32 (i : b32) : b32 := exist _ (blake (raw i)) (Hblake _ (proj2_sig i)).
  Variable rand_hash_input : sampler R b32.
  Variables (default_input default_output : b32).
  Context {R0 : Type}.
  Variables (seed_from_u64 : N -> R0) (rand_u128 : sampler R0 N).

  Definition or_nil {A} (x : res (list A)) : list A := match x with Ok l => l | _ => [] end.
  (** what the verifier computes *)
  Definition hash_elements (h : b32) : list K := or_nil (to_field_elements F (raw h)).
  Definition hashes_packed (hs : list b32) : list (pK Q) := or_nil (agg_verifier_input P Q F G (map raw hs)).
  (** what the circuits allocate and demand *)
  Definition single_instance (c : b32 * b32) : list K := or_nil (do (x, _) <- single_synth F (raw (fst c), raw (snd c)); Ok x).
  Definition single_satisfied (c : b32 * b32) : Prop :=
    (do (x, ws) <- single_synth F (raw (fst c), raw (snd c)); many_holds F blake x ws) = Ok true.
  Definition many_instance (c : list b32 * list b32) : list K := or_nil (do (x, _) <- many_synth F (map raw (fst c), map raw (snd c)); Ok x).
  Definition many_satisfied (c : list b32 * list b32) : Prop :=
    (do (x, ws) <- many_synth F (map raw (fst c), map raw (snd c)); many_holds F blake x ws) = Ok true.
  Definition many_same (c0 c : list b32 * list b32) : Prop := length (fst c0) = length (fst c) /\ length (snd c0) = length (snd c).
  Definition agg_instance (c : list b32 * list (g16_proof P) * g16_vk P) : list (pK Q) :=
    let '(outs, proofs, _) := c in or_nil (agg_synth P Q F G (map raw outs) proofs).
  Definition agg_satisfied (c : list b32 * list (g16_proof P) * g16_vk P) : Prop :=
    let '(outs, proofs, vk) := c in (do x <- agg_synth P Q F G (map raw outs) proofs; agg_holds P Q F G vk x proofs) = Ok true.
  (** the constraints of the verification circuit can be generated: no assertion fails.  [vk] is a constant of the
      circuit, the hashes and the proofs are not. *)
  Definition agg_generated (c : list b32 * list (g16_proof P) * g16_vk P) : Prop :=
    let '(outs, proofs, vk) := c in exists ok, (do x <- agg_synth P Q F G (map raw outs) proofs; agg_holds P Q F G vk x proofs) = Ok ok.
  Definition agg_same (c0 c : list b32 * list (g16_proof P) * g16_vk P) : Prop :=
    agg_generated c0 /\ agg_generated c /\ length (fst (fst c0)) = length (fst (fst c)) /\ snd c0 = snd c.

  Lemma raw_hash hs : Forall is_hash (map raw hs).
  Proof using. apply Forall_forall. intros h Hh. apply in_map_iff in Hh as [x [<- _]]. exact (proj2_sig x). Qed.
  Lemma hash_elements_ok h : to_field_elements F (raw h) = Ok (hash_elements h).
  Proof using HfF. unfold hash_elements. rewrite (to_fe_ok F HfF). reflexivity. Qed.
  Lemma hash_elements_map hs : rmapM (to_field_elements F) (map raw hs) = Ok (map hash_elements hs).
  Proof using HfF. induction hs as [|h hs IH]; [reflexivity|]. cbn [map rmapM]. rewrite hash_elements_ok. cbn [rbind]. rewrite IH. reflexivity. Qed.

  Lemma many_ok ins outs : length ins = length outs -> many_synth F (map raw ins, map raw outs) = Ok (flat_map hash_elements outs, map raw ins) /\
    (many_sat b32 b32 blake32 (ins, outs) -> many_holds F blake (flat_map hash_elements outs) (map raw ins) = Ok true).
  Proof using HF HfF.
    intros Hl. destruct (C71_honest F HF HfF blake (map raw ins) (map raw outs)) as (ls & ok & H1 & H2 & H3 & H4); [now rewrite !map_length|apply raw_hash|].
    rewrite hash_elements_map in H1. injection H1 as <-. rewrite flat_map_concat_map. split; [exact H2|]. intros Hs. rewrite H3. f_equal. apply H4.
    unfold many_sat in Hs. cbn [fst snd] in Hs. clear - Hs. induction Hs as [|i o ins outs -> Hs IH]; [reflexivity|]. cbn [map]. now rewrite IH.
  Qed.

  Lemma verify_rows (vk : g16_vk P) outs proofs : length outs = length proofs ->
    Forall (fun o => length (hash_elements o) + 1 = length (vk_gamma_abc_g1 vk)) outs ->
    exists x ok, agg_synth P Q F G (map raw outs) proofs = Ok x /\ agg_verifier_input P Q F G (map raw outs) = Ok x /\
      agg_holds P Q F G vk x proofs = Ok ok /\ (ok = true <-> Forall2 (fun o pf => g16_valid vk (hash_elements o) pf) outs proofs).
  Proof using HF HG HfF HfG Hel.
    intros Hl Hf. destruct (C72_inputs F G HfF HfG (map raw outs) proofs) as (x & H1 & H2). rewrite map_length, Hl, Nat.eqb_refl in H2.
    destruct (C72_relation F G HF HG HfF HfG Hel vk (map raw outs) (map hash_elements outs) x proofs) as (ok & H3 & H4); auto using raw_hash, hash_elements_map.
    { apply Forall_forall. intros l Hi. apply in_map_iff in Hi as [o [<- Ho]]. eapply Forall_forall in Hf; eauto. }
    exists x, ok. repeat split; auto.
    - intros Hk. apply H4 in Hk. clear - Hk. revert proofs Hk. induction outs as [|o outs IH]; intros [|pf proofs] H; inversion H; subst; constructor; auto.
    - intros Hk. apply H4. clear - Hk. induction Hk; cbn [map]; constructor; auto.
  Qed.

  Lemma single_snark_complete (SS : snark R P (b32 * b32)) :
    snark_complete SS single_instance single_satisfied (fun _ _ => True) ->
    snark_complete SS (fun c => hash_elements (snd c)) (single_sat b32 b32 blake32) (fun _ _ => True).
  Proof using HF HfF.
    apply snark_complete_impl; auto.
    + intros c0 [i o] _. split; [exact I|]. unfold single_instance, single_synth. cbn [fst snd].
      destruct (many_ok [i] [o] eq_refl) as [H _]. cbn [map flat_map] in H. rewrite app_nil_r in H. rewrite H. reflexivity.
    + intros c0 [i o] _ Hs. unfold single_sat in Hs. cbn [fst snd] in Hs. unfold single_satisfied, single_synth. cbn [fst snd].
      destruct (many_ok [i] [o] eq_refl) as [H H']. cbn [map flat_map] in H, H'. rewrite app_nil_r in H, H'. rewrite H. cbn [rbind]. apply H'.
      constructor; [exact Hs|constructor].
  Qed.
  Lemma many_snark_complete (SM : snark R P (list b32 * list b32)) :
    snark_complete SM many_instance many_satisfied many_same ->
    snark_complete SM (fun c => flat_map hash_elements (snd c)) (many_sat b32 b32 blake32) (many_like b32 b32).
  Proof using HF HfF.
    apply snark_complete_impl.
    + intros c0 [ins outs] [-> Hl]. cbn [fst snd] in Hl. split; [split; reflexivity|]. unfold many_instance. cbn [fst snd].
      destruct (many_ok ins outs Hl) as [-> _]. reflexivity.
    + intros c0 c [-> Hl]. split; auto.
    + intros c0 [ins outs] [-> Hl] Hs. unfold many_satisfied. cbn [fst snd] in *. destruct (many_ok ins outs Hl) as [-> H]. cbn [rbind]. now apply H.
  Qed.
  Lemma agg_snark_complete (SA : snark R Q (list b32 * list (g16_proof P) * g16_vk P)) :
    snark_complete SA agg_instance agg_satisfied agg_same ->
    snark_complete SA (fun c => hashes_packed (fst (fst c))) (rec_sat b32 hash_elements) (rec_like b32 hash_elements).
  Proof using HF HG HfF HfG Hel.
    apply snark_complete_impl.
    + intros c0 [[outs proofs] vk] [-> [Hl Hf]]. destruct (verify_rows vk outs proofs Hl Hf) as (x & ok & H1 & H2 & H3 & _). split.
      * unfold agg_same, agg_generated. rewrite H1. cbn [rbind]. repeat split; eauto.
      * unfold agg_instance, hashes_packed. cbn [fst]. now rewrite H1, H2.
    + intros c0 c [-> Hl]. split; auto.
    + intros c0 [[outs proofs] vk] [-> [Hl Hf]] Hs. destruct (verify_rows vk outs proofs Hl Hf) as (x & ok & H1 & _ & H3 & H4).
      unfold agg_satisfied. rewrite H1. cbn [rbind]. rewrite H3. f_equal. apply H4. exact Hs.
  Qed.

  Theorem C73_bench_complete (SS : snark R P (b32 * b32)) (SM : snark R P (list b32 * list b32))
      (SA : snark R Q (list b32 * list (g16_proof P) * g16_vk P)) :
    snark_complete SS single_instance single_satisfied (fun _ _ => True) ->
    snark_complete SM many_instance many_satisfied many_same ->
    snark_complete SA agg_instance agg_satisfied agg_same ->
    forall trials k rec all mono rng,
    g16_bench_main P E D fuel rs r1 r2 b32 b32 rand_hash_input blake32 default_input default_output hash_elements
      seed_from_u64 rand_u128 Q SS SM SA hashes_packed trials (2 ^ S k) rec all mono rng = Ok tt.
  Proof using HE HD HL0 HL1 HL2 HC HF HG HfF HfG Hel.
    intros HS HM HA trials k rec all mono rng.
    apply C68_bench_complete; auto using single_snark_complete, many_snark_complete, agg_snark_complete.
  Qed.
End Programs73.
Print Assumptions C73_example_complete.
Print Assumptions C73_bench_complete.

(** *** All hypotheses at once, and a run *)
Section Toy73.
  Context {C : Type}.
  Variable inputs : C -> list F262147.
  Definition toy73_vk (n : nat) : g16_vk P262147 :=
    mk_g16_vk (P := P262147) (zf1 2) (zf1 3) (zf1 5) (zf1 7) (map (fun i => zf1 (Z.of_nat i + 1)) (seq 0 (n + 1))).
  Definition toy73_prove (vk : g16_vk P262147) (row : list F262147) : g16_proof P262147 :=
    let ic := match batch_input P262147 (vk_gamma_abc_g1 vk) row with Ok x => x | _ => zf1 0 end in
    mk_g16_proof (P := P262147) (zm_add _ (zm_add _ (zm_mul _ (zf1 2) (zf1 3)) (zm_mul _ ic (zf1 5))) (zm_mul _ (zf1 4) (zf1 7))) (zf1 1) (zf1 4).
  Definition toy73 : snark Z P262147 C :=
    mk_snark (P := P262147) (g16_vk P262147) (fun vk => vk) (fun c z => Ok (toy73_vk (length (inputs c)), z)) (fun vk c z => Ok (toy73_prove vk (inputs c), z)).
  Lemma toy73_complete sat (like : C -> C -> Prop) : (forall c0 c, like c0 c -> length (inputs c) = length (inputs c0)) ->
    snark_complete (P := P262147) toy73 inputs sat like.
  Proof.
    intros Hl c0 z _. exists (toy73_vk (length (inputs c0))), z. split; [reflexivity|]. split.
    { cbn. now rewrite map_length, seq_length. }
    intros c z1 Hc _. split; [now apply Hl|]. eexists _, z1. split; [reflexivity|].
    unfold toy73_prove. cbn [sn_vk toy73]. rewrite batch_input_eq by (cbn; rewrite Nat.add_1_r; discriminate).
    unfold g16_valid. cbn [pf_a pf_b pf_c vk_alpha_g1 vk_beta_g2 vk_gamma_g2 vk_delta_g2 toy73_vk].
    set (ic := input_comb _ _). change (fcar F262147) with (zm 262147) in ic.
    change (zm_mul 262147 (zm_add 262147 (zm_add 262147 (zm_mul 262147 (zf1 2) (zf1 3)) (zm_mul 262147 ic (zf1 5))) (zm_mul 262147 (zf1 4) (zf1 7))) (zf1 1) =
      zm_add 262147 (zm_add 262147 (zm_mul 262147 (zf1 2) (zf1 3)) (zm_mul 262147 ic (zf1 5))) (zm_mul 262147 (zf1 4) (zf1 7))).
    rewrite (Rmul_comm (F_R (zm_field_theory 262147 prime_262147))). apply (Rmul_1_l (F_R (zm_field_theory 262147 prime_262147))).
  Qed.
End Toy73.

Definition ex_b32 (n : N) : b32 := exist _ (ex_blake [n]) (ex_blake_hash [n]).
Definition ex_inst1 := single_instance (P := P262147) R262147.
Definition ex_instm := many_instance (P := P262147) R262147.
Definition ex_insta := agg_instance (P := P262147) (Q := P262147) R262147 R262147.
Lemma ex_many_length ins outs : length (ex_instm (ins, outs)) = 16 * Nat.min (length ins) (length outs).
Proof.
  unfold ex_instm, many_instance, many_synth. cbn [fst snd].
  assert (H : forall l : list (bytes * bytes), Forall (fun io => length (snd io) = 32) l ->
    exists fes, rmapM (fun io : bytes * bytes => input_vec_values R262147 (snd io)) l = Ok fes /\ length (concat fes) = 16 * length l).
  { induction 1 as [|io l Hio H [fes [IH1 IH2]]]; [now exists []|]. cbn [rmapM]. unfold input_vec_values at 1.
    assert (Ef : exists y, to_field_elements R262147 (snd io) = Ok y) by (eexists; apply to_fe_ok; vm_compute; lia). destruct Ef as [y Ey].
    unfold bytes in *. rewrite Ey. cbn [rbind]. rewrite IH1. cbn [rbind]. exists (y :: fes). split; [reflexivity|]. cbn [concat length]. rewrite app_length, IH2.
    rewrite (to_fe_length R262147 ltac:(vm_compute; lia) _ _ Ey), Hio. change (input_vec_len R262147 32) with 16. lia. }
  destruct (H (combine (map raw ins) (map raw outs))) as [fes [H1 H2]].
  { apply Forall_forall. intros [i o] Hi. apply in_combine_r in Hi. pose proof (raw_hash outs) as Ho. eapply Forall_forall in Ho; [|exact Hi]. apply Ho. }
  match goal with |- context [rmapM ?f ?l] => replace (rmapM f l) with (Ok fes) by (symmetry; exact H1) end.
  cbn [rbind or_nil]. transitivity (length (concat fes)); [reflexivity|]. rewrite H2, combine_length, !map_length. reflexivity.
Qed.
Example C73_hypotheses : digest16 two_digest /\ draws_end F262147 two_digest 1 /\
  rounds_end (mod_carrier (fmod F262147)) (mod_carrier (fmod F262147)) (identity_output (fmod F262147)) two_digest 1 /\
  good_challenges F262147 two_digest 1 /\ prime_repr_ok R262147 /\ 0 < fit_bytes R262147 /\ element_bytes R262147 = pr_bytes R262147 /\
  (forall b, is_hash b -> is_hash (ex_blake b)) /\
  snark_complete (P := P262147) (toy73 ex_inst1) ex_inst1 (single_satisfied (P := P262147) R262147 ex_blake) (fun _ _ => True) /\
  snark_complete (P := P262147) (toy73 ex_instm) ex_instm (many_satisfied (P := P262147) R262147 ex_blake) many_same /\
  snark_complete (P := P262147) (toy73 ex_insta) ex_insta (agg_satisfied (P := P262147) (Q := P262147) R262147 R262147) (agg_same (P := P262147) (Q := P262147) R262147 R262147).
Proof.
  split; [intros x; reflexivity|].
  split; [intros x; exists 0, (zf1 2); split; [lia|reflexivity]|].
  split.
  { intros x c1 c2. exists 0, (f_ofN (f := F262147) (from_be_bytes (repeat 2%N 16))). split; [lia|]. unfold round_value.
    change (firstn 16 (two_digest (gipa_hash_input 0 x c1 c2))) with (repeat 2%N 16).
    replace (feqb _ _) with false; [reflexivity|]. symmetry. vm_compute. reflexivity. }
  split.
  { intros x r H. assert (Hz : zm_val 262147 r = 2%Z).
    { unfold Tipa.rand_challenge in H. change (two_digest (usize_be 0 ++ x)) with (two_digest []) in H. change (f_rand (f := F262147) (two_digest [])) with (Some (zf1 2)) in H.
      injection H as <-. vm_compute. reflexivity. }
    split; intros ->; revert Hz; vm_compute; discriminate. }
  split; [exact R262147_ok|]. split; [vm_compute; lia|]. split; [reflexivity|]. split; [intros b _; apply ex_blake_hash|]. split; [|split].
  - apply toy73_complete. intros [i0 o0] [i o] _.
    change (length (ex_instm ([i], [o])) = length (ex_instm ([i0], [o0]))). now rewrite !ex_many_length.
  - apply toy73_complete. intros [i0 o0] [i o] [H1 H2]. cbn [fst snd] in *. rewrite !ex_many_length. congruence.
  - apply toy73_complete. intros [[o0 p0] v0] [[o p] v] [G0 [G1 [H1 _]]]. cbn [fst] in H1. unfold ex_insta, agg_instance.
    destruct G0 as [b0 G0], G1 as [b1 G1]. apply rbind_ok in G0 as [x0 [G0 _]], G1 as [x1 [G1 _]]. rewrite G0, G1. cbn [or_nil].
    assert (Hlen : forall (os : list b32) ps x, agg_synth P262147 P262147 R262147 R262147 (map raw os) ps = Ok x -> length x = 24 * length os).
    { clear. intros os ps x H. unfold agg_synth in H. rewrite (hash_elements_map (P := P262147) R262147 ltac:(vm_compute; lia)) in H. cbn [rbind] in H.
      apply rbind_ok in H as [xs [H1 H2]]. apply rbind_ok in H2 as [u [_ H2]]. injection H2 as <-. clear u ps. revert xs H1.
      induction os as [|o os IH]; intros xs H1; [injection H1 as <-; reflexivity|]. cbn [map rmapM] in H1.
      apply rbind_ok in H1 as [y [E1 H1]]. apply rbind_ok in H1 as [ys [E2 H1]]. injection H1 as <-. pose proof (IH ys E2) as IHn. cbn [concat]. rewrite app_length.
      destruct (decode_hash (P := P262147) (Q := P262147) R262147 R262147 R262147_ok R262147_ok ltac:(vm_compute; lia) ltac:(vm_compute; lia) eq_refl
        (raw o) (hash_elements (P := P262147) R262147 o) y) as [Ly _]; [exact (proj1 (proj2_sig o))|apply hash_elements_ok; vm_compute; lia|exact E1|].
      change (input_vec_len R262147 (agg_bytes P262147 R262147)) with 24 in Ly. cbn [length]. etransitivity; [apply (f_equal2 Nat.add Ly IHn)|lia]. }
    etransitivity; [apply (Hlen _ _ _ G1)|]. etransitivity; [|symmetry; apply (Hlen _ _ _ G0)]. now rewrite H1.
Qed.
Definition ex_rand_b32 : sampler Z b32 := fun z => (ex_b32 (Z.to_N (z mod 251)), (z * 7 + 3) mod 100003)%Z.
Definition ex_rand_zf : sampler Z F262147 := fun z => (zf1 (z + 2), (z * 5 + 1) mod 100003)%Z.
Definition ex_bench73 trials n rec all mono : res unit :=
  g16_bench_main P262147 ex_env two_digest 1 ex_rand_zf ex_rand_zf ex_rand_zf b32 b32 ex_rand_b32
    (blake32 ex_blake (fun b _ => ex_blake_hash b)) (ex_b32 0) (ex_b32 0) (hash_elements (P := P262147) R262147)
    ex_seed ex_u128 P262147 (toy73 ex_inst1) (toy73 ex_instm) (toy73 ex_insta) (hashes_packed (P := P262147) (Q := P262147) R262147 R262147) trials n rec all mono 2%Z.
Example C73_example : ex_bench73 2 2 true true true = Ok tt /\ ex_bench73 1 4 true false true = Ok tt.
Proof. vm_compute. split; reflexivity. Qed.

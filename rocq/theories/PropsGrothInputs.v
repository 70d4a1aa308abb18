(** Property C106: for exactly which public inputs an accepted aggregate proof is accepted. *)
Require Import List Arith NArith ZArith Lia Bool Field.
Import ListNotations.
Require Import Verif.Outcome Verif.Algebra Verif.Zp Verif.Rust Verif.InnerProducts Verif.Commitments
  Verif.Gipa Verif.Poly Verif.Tipa Verif.Ssm Verif.Groth16 Verif.Spec Verif.ListFacts Verif.RustFacts
  Verif.InnerProductFacts Verif.CommitFacts Verif.GipaFacts Verif.GipaComplete Verif.GipaTop Verif.SerFacts
  Verif.PolyFacts Verif.KeyFacts Verif.TipaFacts Verif.SsmFacts Verif.RootFacts Verif.VerifyFacts Verif.PcSpecial Verif.Groth16Facts
  Verif.PropsBase Verif.PropsGipa Verif.PropsTipa Verif.PropsSsm Verif.PropsGroth.

(** sum_i r^i over n rows, and sum_i r^i x_(i, c) over the rows *)
Definition row_weight {K : field} (r : K) (n : nat) : K := fbig n (fpow r).
Definition column {K : field} (r : K) (inputs : list (list K)) (c : nat) : K :=
  fbig (length inputs) (fun i => fpow r i *f fat (nth i inputs []) c).

(** [others] with row j replaced by the one that gives [inputs] and the result the same columns *)
Definition repaired_row {K : field} (r : K) (j : nat) (inputs others : list (list K)) : list K :=
  map (fun c => fat (nth j others []) c +f finv (fpow r j) *f (column r inputs c -f column r others c))
      (seq 0 (length (nth j others []))).
Definition chosen_inputs {K : field} (r : K) (j : nat) (inputs others : list (list K)) : list (list K) :=
  map (fun i => if i =? j then repaired_row r j inputs others else nth i others []) (seq 0 (length others)).

Section Inputs.
  Context {R : Type} {P : pairing}.
  Notation K := (pK P).
  Add Field KfInputs : (f_theory (pK P)).
  Variables (E : penv) (D : bytes -> bytes) (fuel : nat).
  Variables (r1 : sampler R (pG1 P)) (r2 : sampler R (pG2 P)).
  Notation gverify := (g16_verify (R := R) P E D fuel r1 r2).
  Implicit Types (vk : g16_vk P) (inputs : list (list (pK P))).

  Lemma ppe_rhs_columns vk inputs (r : K) c :
    ppe_rhs vk inputs r c =
    row_weight r (length inputs) *m (pr_e P (vk_alpha_g1 vk) (vk_beta_g2 vk) +m pr_e P (at_ (vk_gamma_abc_g1 vk) 0) (vk_gamma_g2 vk))
    +m big (length (vk_gamma_abc_g1 vk) - 1) (fun j => column r inputs j *m pr_e P (at_ (vk_gamma_abc_g1 vk) (S j)) (vk_gamma_g2 vk))
    +m pr_e P c (vk_delta_g2 vk).
  Proof.
    unfold ppe_rhs. f_equal. unfold input_comb, row_weight, column. set (m := length (vk_gamma_abc_g1 vk) - 1).
    set (ab := pr_e P (vk_alpha_g1 vk) (vk_beta_g2 vk)). set (g0 := pr_e P (at_ (vk_gamma_abc_g1 vk) 0) (vk_gamma_g2 vk)).
    etransitivity.
    { apply big_ext. intros i _. rewrite e_add_l, <- big_e_l.
      instantiate (1 := fun i => fpow r i *m (ab +m g0) +m
        big m (fun j => (fpow r i *f fat (nth i inputs []) j) *m pr_e P (at_ (vk_gamma_abc_g1 vk) (S j)) (vk_gamma_g2 vk))).
      cbv beta. fold g0.
      assert (H : forall x (F : nat -> pGT P), x *m (ab +m (g0 +m big m F)) = x *m (ab +m g0) +m big m (fun j => x *m F j)).
      { intros x F. rewrite big_scale. generalize (big m F). intros. module_norm; ring. }
      rewrite H. f_equal. apply big_ext. intros j _. rewrite e_scale_l.
      generalize (pr_e P (at_ (vk_gamma_abc_g1 vk) (S j)) (vk_gamma_g2 vk)). intros. module_norm; ring. }
    rewrite big_add, big_fscale, big_swap. f_equal. apply big_ext. intros j _. now rewrite big_fscale.
  Qed.

  Lemma ppe_difference vk inputs inputs' (r : K) c :
    ppe_rhs vk inputs' r c -m ppe_rhs vk inputs r c =
    (row_weight r (length inputs') -f row_weight r (length inputs)) *m
      (pr_e P (vk_alpha_g1 vk) (vk_beta_g2 vk) +m pr_e P (at_ (vk_gamma_abc_g1 vk) 0) (vk_gamma_g2 vk))
    +m big (length (vk_gamma_abc_g1 vk) - 1)
        (fun j => (column r inputs' j -f column r inputs j) *m pr_e P (at_ (vk_gamma_abc_g1 vk) (S j)) (vk_gamma_g2 vk)).
  Proof.
    rewrite !ppe_rhs_columns. set (m := length (vk_gamma_abc_g1 vk) - 1).
    assert (H : big m (fun j => (column r inputs' j -f column r inputs j) *m pr_e P (at_ (vk_gamma_abc_g1 vk) (S j)) (vk_gamma_g2 vk)) =
      big m (fun j => column r inputs' j *m pr_e P (at_ (vk_gamma_abc_g1 vk) (S j)) (vk_gamma_g2 vk)) -m
      big m (fun j => column r inputs j *m pr_e P (at_ (vk_gamma_abc_g1 vk) (S j)) (vk_gamma_g2 vk))).
    { generalize m as n. induction n as [|n IH]; cbn [big]; [module_norm; ring|]. rewrite IH.
      match goal with |- context [big n ?F] => generalize (big n F) end.
      match goal with |- context [big n ?F] => generalize (big n F) end.
      intros. module_norm; ring. }
    rewrite H.
    match goal with |- context [big m ?F] => generalize (big m F) end.
    match goal with |- context [big m ?F] => generalize (big m F) end.
    intros. module_norm; ring.
  Qed.

  (** ** the exact condition *)
  Theorem C106_exactly v vk inputs inputs' proof r :
    proof_challenge D fuel proof r -> rows_fit vk inputs -> rows_fit vk inputs' -> gverify v vk inputs proof = Ok true ->
    exists b, gverify v vk inputs' proof = Ok b /\
      (b = true <->
       (row_weight r (length inputs') -f row_weight r (length inputs)) *m
         (pr_e P (vk_alpha_g1 vk) (vk_beta_g2 vk) +m pr_e P (at_ (vk_gamma_abc_g1 vk) 0) (vk_gamma_g2 vk))
       +m big (length (vk_gamma_abc_g1 vk) - 1)
           (fun c => (column r inputs' c -f column r inputs c) *m pr_e P (at_ (vk_gamma_abc_g1 vk) (S c)) (vk_gamma_g2 vk)) = m0).
  Proof.
    intros Hr Hfit Hfit' H. rewrite (verify_eq _ _ _ _ _ _ _ inputs _ _ Hr) in H. rewrite (verify_eq _ _ _ _ _ _ _ inputs' _ _ Hr).
    apply rbind_ok in H as [x [Hx H]]. apply rbind_ok in H as [y [Hy H]]. apply rbind_ok in H as [z [Hz H]].
    assert (Hv : x && y && z = true) by congruence. apply andb_true_iff in Hv as [Hv ->]. apply andb_true_iff in Hv as [-> ->].
    assert (H1 : r <> f1) by (intros ->; rewrite ppe_one in Hz; discriminate).
    rewrite rows_fit_ppe in Hz by auto. assert (Hz' : ag_ip_ab proof = ppe_rhs vk inputs r (ag_agg_c proof)).
    { apply meqb_spec. congruence. }
    rewrite Hx, Hy, rows_fit_ppe by auto. cbn [rbind]. eexists. split; [reflexivity|]. cbn [andb].
    rewrite <- (ppe_difference vk inputs inputs' r (ag_agg_c proof)), msub_eq0, <- Hz'. rewrite meqb_spec. split; congruence.
  Qed.

  (** ** equal columns: the same answer from every proof *)
  Theorem C106_same_columns v vk inputs inputs' proof r :
    proof_challenge D fuel proof r -> rows_fit vk inputs -> rows_fit vk inputs' -> length inputs' = length inputs ->
    (forall c, c + 1 < length (vk_gamma_abc_g1 vk) -> column r inputs' c = column r inputs c) ->
    gverify v vk inputs' proof = gverify v vk inputs proof.
  Proof.
    intros Hr Hfit Hfit' Hl Hc. apply verify_congr. intros r' Hr'.
    assert (r' = r) as -> by (unfold proof_challenge in *; congruence).
    destruct (f_eq_dec _ r f1) as [->|H1]; [now rewrite !ppe_one|].
    rewrite !rows_fit_ppe by auto. f_equal. f_equal. rewrite !ppe_rhs_columns, Hl. f_equal. f_equal.
    apply big_ext. intros j Hj. rewrite Hc by lia. reflexivity.
  Qed.

  Lemma chosen_nth r j inputs others i : i < length others ->
    nth i (chosen_inputs r j inputs others) [] = if i =? j then repaired_row r j inputs others else nth i others ([] : list K).
  Proof.
    intros Hi. unfold chosen_inputs.
    rewrite (nth_indep _ [] ((fun i => if i =? j then repaired_row r j inputs others else nth i others []) 0)) by (now rewrite map_length, seq_length).
    rewrite (map_nth (fun i => if i =? j then repaired_row r j inputs others else nth i others [])), seq_nth by auto. reflexivity.
  Qed.

  Lemma column_chosen r j inputs others c : r <> f0 -> j < length others -> c < length (nth j others ([] : list K)) ->
    column r (chosen_inputs r j inputs others) c = column r inputs c.
  Proof.
    intros Hr Hj Hc. assert (Hp : fpow r j <> f0) by (now apply fpow_neq0).
    unfold column at 1. replace (length (chosen_inputs r j inputs others)) with (length others) by (unfold chosen_inputs; now rewrite map_length, seq_length).
    assert (H : forall n, n <= length others ->
      fbig n (fun i => fpow r i *f fat (nth i (chosen_inputs r j inputs others) []) c) =
      fbig n (fun i => fpow r i *f fat (nth i others []) c) +f (if j <? n then column r inputs c -f column r others c else f0)).
    { induction n as [|n IH]; intros Hn; cbn [fbig]; [cbn; ring|]. rewrite IH, chosen_nth by lia.
      destruct (Nat.eqb_spec n j) as [->|Hne].
      - rewrite (proj2 (Nat.ltb_ge j j)), (proj2 (Nat.ltb_lt j (S j))) by lia.
        unfold repaired_row. rewrite fat_map_seq by auto. field. auto.
      - replace (j <? S n) with (j <? n); [ring|]. destruct (Nat.ltb_spec j n), (Nat.ltb_spec j (S n)); auto; lia. }
    rewrite H by lia. rewrite (proj2 (Nat.ltb_lt _ _) Hj). fold (column r others c). ring.
  Qed.

  (** ** the rows of all proofs but one can be chosen freely *)
  Theorem C106_chosen v vk inputs others proof r j :
    proof_challenge D fuel proof r -> r <> f0 -> rows_fit vk inputs -> rows_fit vk others ->
    length others = length inputs -> j < length others ->
    rows_fit vk (chosen_inputs r j inputs others) /\ length (chosen_inputs r j inputs others) = length inputs /\
    (forall i, i < length others -> i <> j -> nth i (chosen_inputs r j inputs others) [] = nth i others []) /\
    gverify v vk (chosen_inputs r j inputs others) proof = gverify v vk inputs proof.
  Proof.
    intros Hr H0 Hfit [Hne HF] Hl Hj.
    assert (Lc : length (chosen_inputs r j inputs others) = length others) by (unfold chosen_inputs; now rewrite map_length, seq_length).
    assert (HF' : forall i, i < length others -> length (nth i others []) + 1 = length (vk_gamma_abc_g1 vk)).
    { intros i Hi. rewrite Forall_forall in HF. apply HF. now apply nth_In. }
    assert (Hfit' : rows_fit vk (chosen_inputs r j inputs others)).
    { split; [intros E0; rewrite E0 in Lc; cbn in Lc; lia|]. apply Forall_forall. intros row Hrow.
      destruct (In_nth _ _ [] Hrow) as [i [Hi <-]]. rewrite Lc in Hi. rewrite chosen_nth by auto.
      destruct (i =? j); [|now apply HF']. unfold repaired_row. rewrite map_length, seq_length. now apply HF'. }
    split; [exact Hfit'|]. split; [congruence|]. split.
    { intros i Hi Hne'. rewrite chosen_nth by auto. now rewrite (proj2 (Nat.eqb_neq i j) Hne'). }
    apply (C106_same_columns v vk inputs _ proof r); auto; [congruence|]. intros c Hc. apply column_chosen; auto.
    specialize (HF' j Hj). lia.
  Qed.

  (** ** the other way round: accepted with different columns gives a relation between the elements of the key *)
  Theorem C106_relation v vk inputs inputs' proof r :
    proof_challenge D fuel proof r -> rows_fit vk inputs -> rows_fit vk inputs' -> length inputs' = length inputs ->
    gverify v vk inputs proof = Ok true -> gverify v vk inputs' proof = Ok true ->
    pr_e P (big (length (vk_gamma_abc_g1 vk) - 1)
       (fun c => (column r inputs' c -f column r inputs c) *m at_ (vk_gamma_abc_g1 vk) (S c))) (vk_gamma_g2 vk) = m0.
  Proof.
    intros Hr Hfit Hfit' Hl H H'. destruct (C106_exactly v vk inputs inputs' proof r Hr Hfit Hfit' H) as [b [Hb HI]].
    assert (b = true) as -> by congruence. pose proof (proj1 HI eq_refl) as HX. rewrite Hl in HX.
    rewrite <- big_e_l. etransitivity; [|exact HX].
    etransitivity; [apply big_ext; intros c _; apply e_scale_l|].
    match goal with |- big ?m ?F = _ => generalize (big m F) end. intros. module_norm; ring.
  Qed.
End Inputs.
Print Assumptions C106_exactly.
Print Assumptions C106_same_columns.
Print Assumptions C106_chosen.
Print Assumptions C106_relation.

(** The aggregate of the two valid proofs of [PropsGroth]: the first proof belongs to the input 3; its input is replaced
    by 50, the second one is computed. *)
Definition ex106_inputs : list (list ZP) := chosen_inputs (K := ZP) (zq 66) 1 ex_inputs [zl [50]%Z; zl [0]%Z].
Example C106_example :
  nth 0 ex106_inputs [] = zl [50]%Z /\
  (do pv <- ex_agg toy_digest ex_pfs; ex_gverify toy_digest ex106_inputs pv) = Ok true /\
  ~ g16_valid ex_vk (nth 0 ex106_inputs []) (nth 0 ex_pfs pf0) /\
  rows_fit ex_vk [zl [50]%Z; zl [0]%Z].
Proof.
  split; [vm_compute; reflexivity|]. split; [vm_compute; reflexivity|].
  split; [intros H; vm_compute in H; discriminate|]. split; [discriminate|repeat constructor].
Qed.
(** any other second input is refused *)
Example C106_example_refused :
  (do pv <- ex_agg toy_digest ex_pfs; ex_gverify toy_digest [zl [50]%Z; zl [5]%Z] pv) = Ok false /\
  zp_val (column (K := ZP) (zq 66) ex106_inputs 0) = zp_val (column (K := ZP) (zq 66) ex_inputs 0) /\
  zp_val (column (K := ZP) (zq 66) [zl [50]%Z; zl [5]%Z] 0) <> zp_val (column (K := ZP) (zq 66) ex_inputs 0).
Proof. split; [vm_compute; reflexivity|]. split; vm_compute; [reflexivity|discriminate]. Qed.

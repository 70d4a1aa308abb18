(** GIPA: closed forms, the prover's loop, completeness. *)
Require Import List Arith NArith Lia Bool Field.
Import ListNotations.
Require Import Verif.Outcome Verif.Algebra Verif.Rust Verif.Spec Verif.ListFacts Verif.RustFacts
  Verif.InnerProducts Verif.Commitments Verif.InnerProductFacts Verif.CommitFacts Verif.Gipa.

(** ** Subset products *)
Section Subs.
  Context {K : field}.
  Add Field KfSub : (f_theory K).
  Implicit Types t : list K.

  Definition subs_step (e : list K) (c : K) : list K := e ++ map (fun y => y *f c) e.
  Definition subs_from (e : list K) (t : list K) : list K := fold_left subs_step t e.
  Definition subs (t : list K) : list K := subs_from [f1] t.

  Lemma subs_snoc t c : subs (t ++ [c]) = subs t ++ map (fun y => y *f c) (subs t).
  Proof. unfold subs, subs_from. now rewrite fold_left_app. Qed.

  Lemma subs_from_length e t : length (subs_from e t) = length e * 2 ^ length t.
  Proof.
    revert e. induction t; intros e; cbn [subs_from fold_left length Nat.pow]; [lia|].
    fold (subs_from (subs_step e a) t). rewrite IHt. unfold subs_step.
    rewrite app_length, map_length. lia.
  Qed.

  Lemma subs_length t : length (subs t) = 2 ^ length t.
  Proof. unfold subs. rewrite subs_from_length. cbn [length]. lia. Qed.

  Lemma fprod_ext n (F G : nat -> K) : (forall i, i < n -> F i = G i) -> fprod n F = fprod n G.
  Proof. induction n; cbn; intros H; auto. rewrite IHn by auto. rewrite H by lia. auto. Qed.

  Lemma fat_app1 (l r : list K) i : i < length l -> fat (l ++ r) i = fat l i.
  Proof. intros. unfold fat. now rewrite app_nth1. Qed.

  Lemma testbit_small i n : i < 2 ^ n -> Nat.testbit i n = false.
  Proof.
    intros H. destruct (Nat.eq_dec i 0) as [->|Hi]; [apply Nat.bits_0|].
    apply Nat.bits_above_log2. apply Nat.log2_lt_pow2; lia.
  Qed.

  Lemma testbit_add_high i n : i < 2 ^ n -> Nat.testbit (2 ^ n + i) n = true.
  Proof.
    intros H. pose proof (Nat.testbit_spec' (2 ^ n + i) n) as S.
    replace ((2 ^ n + i) / 2 ^ n) with 1 in S.
    - cbn in S. destruct (Nat.testbit (2 ^ n + i) n); [reflexivity|discriminate].
    - symmetry. replace (2 ^ n + i) with (i + 1 * 2 ^ n) by lia.
      rewrite Nat.div_add by (apply Nat.pow_nonzero; lia).
      rewrite Nat.div_small; auto.
  Qed.

  Lemma testbit_add_low i n j : j < n -> Nat.testbit (2 ^ n + i) j = Nat.testbit i j.
  Proof.
    intros H.
    rewrite <- (Nat.mod_pow2_bits_low (2 ^ n + i) n j H), <- (Nat.mod_pow2_bits_low i n j H).
    f_equal. replace (2 ^ n + i) with (i + 1 * 2 ^ n) by lia.
    apply Nat.mod_add. apply Nat.pow_nonzero; lia.
  Qed.

  Lemma subset_prod_snoc_low t c i : i < 2 ^ length t -> subset_prod (t ++ [c]) i = subset_prod t i.
  Proof.
    intros H. unfold subset_prod. rewrite app_length. cbn [length]. rewrite Nat.add_1_r. cbn [fprod].
    rewrite testbit_small by auto.
    rewrite (fprod_ext _ _ (fun j => if Nat.testbit i j then fat t j else f1)).
    - ring.
    - intros j Hj. now rewrite fat_app1.
  Qed.

  Lemma subset_prod_snoc_high t c i : i < 2 ^ length t ->
    subset_prod (t ++ [c]) (2 ^ length t + i) = subset_prod t i *f c.
  Proof.
    intros H. unfold subset_prod. rewrite app_length. cbn [length]. rewrite Nat.add_1_r. cbn [fprod].
    rewrite testbit_add_high by auto.
    rewrite (fprod_ext _ _ (fun j => if Nat.testbit i j then fat t j else f1)).
    - f_equal. unfold fat. rewrite app_nth2 by lia. now rewrite Nat.sub_diag.
    - intros j Hj. now rewrite fat_app1, testbit_add_low.
  Qed.

  Lemma subs_nth t i : i < 2 ^ length t -> fat (subs t) i = subset_prod t i.
  Proof.
    revert i. induction t as [|c t IH] using rev_ind; intros i Hi.
    - cbn in Hi. assert (i = 0) as -> by lia. reflexivity.
    - rewrite app_length in Hi. cbn [length] in Hi. rewrite Nat.add_1_r in Hi. cbn [Nat.pow] in Hi.
      rewrite subs_snoc. unfold fat.
      destruct (Nat.lt_ge_cases i (2 ^ length t)).
      + rewrite app_nth1 by now rewrite subs_length.
        rewrite subset_prod_snoc_low by auto. now apply IH.
      + rewrite app_nth2 by now rewrite subs_length. rewrite subs_length.
        replace i with (2 ^ length t + (i - 2 ^ length t)) at 2 by lia.
        rewrite subset_prod_snoc_high by lia. rewrite <- IH by lia. unfold fat.
        rewrite (nth_indep _ f0 (f0 *f c)) by (rewrite map_length, subs_length; lia).
        apply (map_nth (fun y => y *f c)).
  Qed.

  Lemma subs_map t : subs t = map (subset_prod t) (seq 0 (2 ^ length t)).
  Proof.
    apply (nth_ext_eq _ _ f0).
    - now rewrite subs_length, map_length, seq_length.
    - intros i Hi. rewrite subs_length in Hi.
      rewrite (nth_indep (map _ _) f0 (subset_prod t 0)) by (rewrite map_length, seq_length; auto).
      rewrite map_nth, seq_nth by auto. now apply subs_nth.
  Qed.

  (** sum over a vector with subset-product weights *)
  Lemma dot_subs {M : module K} (ck : list M) t : length ck = 2 ^ length t ->
    dot smul ck (subs t : list (fmod K)) = big (length ck) (fun i => subset_prod t i *m at_ ck i).
  Proof.
    intros H. rewrite (dot_big smul ck (subs t : list (fmod K))) by now rewrite subs_length.
    apply big_ext. intros i Hi. unfold smul. f_equal. apply subs_nth. lia.
  Qed.

  Lemma dot_smul_map {M : module K} (l : list M) (e : list K) c :
    dot smul l (map (fun y => y *f c) e : list (fmod K)) = c *m dot smul l (e : list (fmod K)).
  Proof.
    rewrite <- (dot_scale_r _ smul_bilinear c l (e : list (fmod K))). f_equal.
    apply map_ext. intros y. cbn. ring.
  Qed.

  (** folding with c first, then with the rest *)
  Lemma dot_subs_fold {M : module K} (l1 l2 : list M) t c :
    length l1 = 2 ^ length t -> length l2 = 2 ^ length t ->
    dot smul (l1 ++ l2) (subs (t ++ [c]) : list (fmod K)) =
    dot smul (vfold c l1 l2) (subs t : list (fmod K)).
  Proof.
    intros H1 H2. rewrite subs_snoc.
    rewrite (dot_app smul l1 l2 (subs t : list (fmod K)) _) by (rewrite subs_length; auto).
    rewrite dot_smul_map, vfold_alt.
    rewrite (dot_add_l _ smul_bilinear), (dot_scale_l _ smul_bilinear)
      by (rewrite ?map_length, ?subs_length; lia).
    apply madd_comm.
  Qed.

  (** ** The verifier's closed form *)
  Lemma push_scaled_spec x m : forall s (v w : list K),
    s + m <= length v ->
    push_scaled x (seq s m) (v ++ w) = Ok (v ++ w ++ map (fun y => y *f x) (firstn m (skipn s v))).
  Proof.
    induction m; intros s v w H; cbn [seq push_scaled].
    - cbn. now rewrite app_nil_r.
    - rewrite (index_ok _ _ f0) by (rewrite app_length; lia).
      cbn [rbind]. rewrite app_nth1 by lia.
      rewrite <- app_assoc. rewrite IHm by lia.
      f_equal. rewrite <- app_assoc. do 2 f_equal.
      assert (Hs : skipn s v = nth s v f0 :: skipn (S s) v).
      { clear -H. revert s H. induction v; intros s H; cbn in H; [lia|].
        destruct s; [reflexivity|]. cbn [skipn nth]. apply IHv. lia. }
      rewrite Hs. reflexivity.
  Qed.

  Lemma push_scaled_all x (v : list K) n : length v = n ->
    push_scaled x (seq 0 n) v = Ok (subs_step v x).
  Proof.
    intros H. rewrite <- (app_nil_r v) at 1. rewrite push_scaled_spec by lia.
    cbn [skipn app]. now rewrite <- H, firstn_all.
  Qed.

  Lemma ck_exponents_ok t : forall i ea eb, length ea = 2 ^ i -> length eb = 2 ^ i ->
    Forall (fun c => c <> f0) t ->
    ck_exponents i t ea eb = Ok (subs_from ea (map finv t), subs_from eb t).
  Proof.
    induction t as [|c t IH]; intros i ea eb Ha Hb Hn; cbn [ck_exponents map]; [reflexivity|].
    inversion Hn; subst. rewrite finverse_neq by auto. cbn [runwrap rbind].
    rewrite !push_scaled_all by auto. cbn [rbind].
    rewrite IH; auto; unfold subs_step; rewrite app_length, map_length; cbn [Nat.pow]; lia.
  Qed.

  Lemma ck_exponents_inv t : forall i ea eb r,
    ck_exponents i t ea eb = Ok r -> Forall (fun c => c <> f0) t.
  Proof.
    induction t as [|c t IH]; intros i ea eb r H; cbn [ck_exponents] in H; [constructor|].
    apply rbind_ok in H as [ci [H1 H]]. apply rbind_ok in H as [ea' [_ H]].
    apply rbind_ok in H as [eb' [_ H]].
    apply runwrap_ok, finverse_some in H1. constructor; [tauto|eauto].
  Qed.

  Lemma ck_combine_dot {M : module K} (ck : list M) (e : list K) :
    ck <> [] -> e <> [] -> ck_combine ck e = Ok (dot smul ck (e : list (fmod K))).
  Proof.
    intros Hc He. destruct ck as [|k ck]; [congruence|]. destruct e as [|x e]; [congruence|].
    unfold ck_combine, slice_from. cbn. rewrite msum_fold_left. reflexivity.
  Qed.

  Lemma ck_combine_inv {M : module K} (ck : list M) (e : list K) r :
    ck_combine ck e = Ok r -> ck <> [] /\ e <> [].
  Proof.
    unfold ck_combine, index. destruct ck, e; cbn; intros; try discriminate; split; congruence.
  Qed.

  Lemma final_keys_ok {KA KB : module K} (ck_a : list KA) (ck_b : list KB) t :
    length ck_a = 2 ^ length t -> ck_b <> [] -> Forall (fun c => c <> f0) t ->
    gipa_final_keys ck_a ck_b t =
      Ok (dot smul ck_a (subs (map finv t) : list (fmod K)), dot smul ck_b (subs t : list (fmod K))).
  Proof.
    intros Ha Hb Hn. unfold gipa_final_keys.
    rewrite Ha, is_power_of_two_pow2. cbn [rassert rbind].
    rewrite ck_exponents_ok by auto. cbn [rbind].
    fold (subs (map finv t)) (subs t).
    rewrite subs_length, map_length, Nat.eqb_refl. cbn [rassert rbind].
    assert (Hne : forall t', subs t' <> []).
    { intros t' E. apply (f_equal (@length K)) in E. rewrite subs_length in E. cbn [length] in E.
      pose proof (pow2_pos (length t')). lia. }
    rewrite !ck_combine_dot; auto.
    - intros ->. cbn [length] in Ha. pose proof (pow2_pos (length t)). lia.
  Qed.

  Lemma final_keys_inv {KA KB : module K} (ck_a : list KA) (ck_b : list KB) t r :
    gipa_final_keys ck_a ck_b t = Ok r ->
    length ck_a = 2 ^ length t /\ ck_b <> [] /\ Forall (fun c => c <> f0) t.
  Proof.
    unfold gipa_final_keys. intros H.
    apply rbind_ok in H as [? [H1 H]]. apply rbind_ok in H as [[ea eb] [H2 H]].
    apply rbind_ok in H as [? [H3 H]]. apply rbind_ok in H as [ka [H4 H]].
    apply rbind_ok in H as [kb [H5 H]].
    pose proof (ck_exponents_inv _ _ _ _ _ H2) as Hn.
    rewrite ck_exponents_ok in H2 by auto. injection H2 as <- <-.
    apply rassert_ok, Nat.eqb_eq in H3. rewrite subs_from_length, map_length in H3. cbn [length] in H3.
    apply ck_combine_inv in H5. repeat split; [lia|tauto|auto].
  Qed.
End Subs.

Lemma rescale_vfold {K} {M : module K} x (l1 l2 : list M) : rescale x l1 l2 = vfold x l2 l1.
Proof. unfold rescale, vfold. now rewrite zipw_flip. Qed.

(** ** Challenges *)
Section Challenge.
  Context {K : field} {OA OB OT : carrier K}.
  Variable D : bytes -> bytes.

  (** what nonce n gives: the 128-bit value, if invertible *)
  Definition gipa_usable (prev : K) (c1 c2 : com3 OA OB OT) (n : nat) : option K :=
    let v : K := f_ofN (from_be_bytes (firstn 16 (D (gipa_hash_input n prev c1 c2)))) in
    if feqb v f0 then None else Some v.

  Definition digest16 : Prop := forall b, 16 <= length (D b).

  Lemma gipa_challenge_step fuel n prev c1 c2 : digest16 ->
    gipa_challenge D (S fuel) n prev c1 c2 =
      match gipa_usable prev c1 c2 n with
      | Some v => Ok (finv v, v)
      | None => gipa_challenge D fuel (S n) prev c1 c2
      end.
  Proof.
    intros HD. cbn [gipa_challenge]. unfold slice_to.
    rewrite (proj2 (Nat.leb_le _ _) (HD _)). cbn [rbind].
    unfold gipa_usable, finverse. now destruct feqb.
  Qed.

  Lemma gipa_challenge_spec_from prev c1 c2 : digest16 -> forall fuel n,
    (exists m v, n <= m < n + fuel /\ gipa_usable prev c1 c2 m = Some v /\
                 (forall i, n <= i < m -> gipa_usable prev c1 c2 i = None) /\
                 gipa_challenge D fuel n prev c1 c2 = Ok (finv v, v))
    \/ ((forall i, n <= i < n + fuel -> gipa_usable prev c1 c2 i = None) /\
        gipa_challenge D fuel n prev c1 c2 = Loop).
  Proof.
    intros HD fuel. induction fuel; intros n.
    - right. split; [intros; lia | reflexivity].
    - rewrite gipa_challenge_step by auto. destruct (gipa_usable prev c1 c2 n) as [v|] eqn:Ev.
      + left. exists n, v. repeat split; auto; try lia; intros; lia.
      + destruct (IHfuel (S n)) as [[m [v [H1 [H2 [H3 H4]]]]]|[H1 H2]].
        * left. exists m, v. repeat split; auto; try lia.
          intros i Hi. destruct (Nat.eq_dec i n) as [->|]; auto. apply H3. lia.
        * right. split; auto. intros i Hi. destruct (Nat.eq_dec i n) as [->|]; auto. apply H1. lia.
  Qed.

  (** no assumption on the digest length *)
  Lemma gipa_challenge_ok_inv fuel : forall n (prev : K) (c1 c2 : com3 OA OB OT) c ci,
    gipa_challenge D fuel n prev c1 c2 = Ok (c, ci) -> ci <> f0 /\ c = finv ci /\ c <> f0 /\ ci = finv c.
  Proof.
    induction fuel; cbn [gipa_challenge]; intros n prev c1 c2 c ci H; [discriminate|].
    apply rbind_ok in H as [d [_ H]].
    destruct (finverse (f_ofN (from_be_bytes d))) eqn:Ef.
    - injection H as <- <-. apply finverse_some in Ef as [E1 ->].
      repeat split; auto using finv_neq0. symmetry. now apply finv_finv.
    - eauto.
  Qed.

  Lemma usable_some prev c1 c2 n v : gipa_usable prev c1 c2 n = Some v -> v <> f0.
  Proof.
    unfold gipa_usable. destruct feqb eqn:Ef; [discriminate|]. intros [= <-]. now apply feqb_false.
  Qed.
End Challenge.

(** ** Folding of commitments *)
Section CFold.
  Context {K : field} {OA OB OT : carrier K}.
  Notation step := (com3 OA OB OT * com3 OA OB OT)%type.

  Definition com_a (c : com3 OA OB OT) : OA := fst (fst c).
  Definition com_b (c : com3 OA OB OT) : OB := snd (fst c).
  Definition com_t (c : com3 OA OB OT) : OT := snd c.

  (** one component folded along the rounds *)
  Fixpoint cfold1 {O : carrier K} (pr : com3 OA OB OT -> O) (com : O) (steps : list step) (cs : list K) : O :=
    match steps, cs with
    | s :: steps, c :: cs =>
      cfold1 pr (cadd (cadd (cscale c (pr (fst s))) com) (cscale (finv c) (pr (snd s)))) steps cs
    | _, _ => com
    end.

  Definition cfold (com : com3 OA OB OT) (steps : list step) (cs : list K) : com3 OA OB OT :=
    (cfold1 com_a (com_a com) steps cs, cfold1 com_b (com_b com) steps cs, cfold1 com_t (com_t com) steps cs).

  Variable D : bytes -> bytes.
  Variable fuel : nat.

  (** the challenges derived from the rounds, starting from previous challenge [prev] *)
  Inductive chain : K -> list step -> list K -> Prop :=
  | chain_nil prev : chain prev [] []
  | chain_cons prev s steps c ci cs :
      gipa_challenge D fuel 0 prev (fst s) (snd s) = Ok (c, ci) ->
      chain c steps cs -> chain prev (s :: steps) (c :: cs).

  Lemma chain_fun prev steps cs : chain prev steps cs -> forall cs', chain prev steps cs' -> cs = cs'.
  Proof.
    induction 1; intros cs' H'; inversion H'; subst; auto.
    assert (c = c0) by congruence. subst. f_equal. auto.
  Qed.

  Lemma chain_length prev steps cs : chain prev steps cs -> length cs = length steps.
  Proof. induction 1; cbn; auto. Qed.

  Lemma chain_nonzero prev steps cs : chain prev steps cs -> Forall (fun c => c <> f0) cs.
  Proof.
    induction 1; constructor; auto. apply gipa_challenge_ok_inv in H. tauto.
  Qed.

  Lemma gipa_prev_snoc (T : list K) c : gipa_prev (T ++ [c]) = c.
  Proof. unfold gipa_prev. now rewrite last_opt_app. Qed.

  Lemma challenges_loop_chain steps : forall com T cs,
    chain (gipa_prev T) steps cs ->
    gipa_challenges_loop D fuel com T steps = Ok (cfold com steps cs, T ++ cs).
  Proof.
    induction steps as [|[[[a1 b1] t1] [[a2 b2] t2]] steps IH]; intros [[a b] t] T cs H;
      inversion H; subst; cbn [gipa_challenges_loop].
    - now rewrite app_nil_r.
    - cbn [fst snd] in *. rewrite H3. cbn [rbind].
      rewrite IH with (cs := cs0) by now rewrite gipa_prev_snoc.
      apply gipa_challenge_ok_inv in H3 as [_ [_ [_ ->]]].
      rewrite <- app_assoc. reflexivity.
  Qed.

  Lemma challenges_loop_inv steps : forall com T com' T',
    gipa_challenges_loop D fuel com T steps = Ok (com', T') ->
    exists cs, chain (gipa_prev T) steps cs /\ com' = cfold com steps cs /\ T' = T ++ cs.
  Proof.
    induction steps as [|[[[a1 b1] t1] [[a2 b2] t2]] steps IH]; intros [[a b] t] T com' T' H;
      cbn [gipa_challenges_loop] in H.
    - injection H as <- <-. exists []. rewrite app_nil_r. repeat split. constructor.
    - apply rbind_ok in H as [[c ci] [H1 H]].
      apply IH in H as [cs [H2 [-> ->]]]. rewrite gipa_prev_snoc in H2.
      exists (c :: cs). split; [|split].
      + econstructor; [exact H1 | exact H2].
      + apply gipa_challenge_ok_inv in H1 as [_ [_ [_ ->]]]. reflexivity.
      + now rewrite <- app_assoc.
  Qed.

  Lemma recursive_challenges_chain {MA MB : module K} com (proof : gipa_proof MA MB OA OB OT) cs :
    chain f0 (rev (gp_steps proof)) cs ->
    gipa_recursive_challenges D fuel com proof = Ok (cfold com (rev (gp_steps proof)) cs, rev cs).
  Proof.
    intros H. unfold gipa_recursive_challenges.
    rewrite (challenges_loop_chain _ com [] cs); auto.
  Qed.

  Lemma recursive_challenges_inv {MA MB : module K} com (proof : gipa_proof MA MB OA OB OT) com' T :
    gipa_recursive_challenges D fuel com proof = Ok (com', T) ->
    exists cs, chain f0 (rev (gp_steps proof)) cs /\
               com' = cfold com (rev (gp_steps proof)) cs /\ T = rev cs.
  Proof.
    unfold gipa_recursive_challenges. intros H. apply rbind_ok in H as [[c t] [H1 H]].
    apply challenges_loop_inv in H1 as [cs [H1 [-> ->]]]. injection H as <- <-.
    exists cs. auto.
  Qed.
End CFold.

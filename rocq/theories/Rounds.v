(** One round of GIPA with openings of all messages: a claim that is wrong before the round is wrong after it, for all but
    three challenges. *)
Require Import List Arith Lia Bool Field.
Import ListNotations.
Require Import Verif.Outcome Verif.Algebra Verif.Spec Verif.ListFacts Verif.RustFacts Verif.InnerProductFacts Verif.RootFacts
  Verif.GipaFacts Verif.KeyFacts.

Lemma msub_iff {K : field} {M : module K} (a b : M) : a -m b = m0 <-> a = b.
Proof.
  split; intros H; [|subst; unfold msub; apply madd_opp].
  transitivity ((a -m b) +m b); [|rewrite H; apply madd_0_l].
  unfold msub. rewrite <- madd_assoc, (madd_comm K M (mopp b)), madd_opp. symmetry. apply madd_0_r.
Qed.

Section Fits.
  Context {K : field} {M : module K}.
  Add Field KfFits : (f_theory K).

  (** the openings of com_1, com, com_2 folded with the challenge c: c x1 + x + c^-1 x2 *)
  Definition fold3 (c : K) (x1 x x2 : list M) : list M := vadd (vadd (vscale c x1) x) (vscale (finv c) x2).

  (** [w], a vector of length 2^k, is an opening for the key folded with [xs]: entry 2^(k-1-j) + i is xs_j times entry i *)
  Definition fits (k : nat) (xs : list K) (w : list M) : Prop :=
    forall j i, j < length xs -> i < 2 ^ (k - 1 - j) -> at_ w (2 ^ (k - 1 - j) + i) = fat xs j *m at_ w i.

  (** the opening for the whole key made of an opening [a] for the folded key *)
  Definition spread_out (xs : list K) (a : M) : list M := map (fun i => subset_prod (rev xs) i *m a) (seq 0 (2 ^ length xs)).

  Lemma at_vadd (l r : list M) i : i < length l -> at_ (vadd l r) i = at_ l i +m at_ r i.
  Proof. intros H. unfold at_ at 1, vadd. rewrite (nth_indep _ m0 (at_ l 0 +m at_ r 0)) by (rewrite map_length, seq_length; auto).
    rewrite (map_nth (fun i => at_ l i +m at_ r i)), seq_nth by auto. reflexivity. Qed.
  Lemma at_vscale x (l : list M) i : i < length l -> at_ (vscale x l) i = x *m at_ l i.
  Proof. intros H. unfold at_ at 1, vscale. rewrite (nth_indep _ m0 (x *m at_ l 0)) by (rewrite map_length, seq_length; auto).
    rewrite (map_nth (fun i => x *m at_ l i)), seq_nth by auto. reflexivity. Qed.

  Lemma fold3_length c x1 x x2 : length (fold3 c x1 x x2) = length x1.
  Proof. unfold fold3. now rewrite !vadd_length, vscale_length. Qed.
  Lemma at_fold3 c x1 x x2 n i : length x1 = n -> length x = n -> length x2 = n -> i < n ->
    at_ (fold3 c x1 x x2) i = c *m at_ x1 i +m at_ x i +m finv c *m at_ x2 i.
  Proof. intros H1 H H2 Hi. unfold fold3. rewrite !at_vadd, !at_vscale by (rewrite ?vadd_length, ?vscale_length; lia). reflexivity. Qed.

  Lemma fits_snoc k xs x w : fits k (xs ++ [x]) w <->
    fits k xs w /\ forall i, i < 2 ^ (k - 1 - length xs) -> at_ w (2 ^ (k - 1 - length xs) + i) = x *m at_ w i.
  Proof.
    unfold fits. rewrite app_length. cbn [length]. split.
    - intros H. split.
      + intros j i Hj Hi. rewrite H by (auto; lia). unfold fat. now rewrite app_nth1 by auto.
      + intros i Hi. rewrite H by (auto; lia). unfold fat. rewrite app_nth2, Nat.sub_diag by lia. reflexivity.
    - intros [H1 H2] j i Hj Hi. unfold fat. destruct (Nat.eq_dec j (length xs)) as [->|Hne].
      + rewrite app_nth2, Nat.sub_diag by lia. now apply H2.
      + rewrite app_nth1 by lia. apply H1; [lia|exact Hi].
  Qed.

  Lemma spread_out_length xs a : length (spread_out xs a) = 2 ^ length xs.
  Proof. unfold spread_out. now rewrite map_length, seq_length. Qed.
  Lemma at_spread_out xs a i : i < 2 ^ length xs -> at_ (spread_out xs a) i = subset_prod (rev xs) i *m a.
  Proof.
    intros H. unfold at_, spread_out. rewrite (nth_indep _ m0 (subset_prod (rev xs) 0 *m a)) by (rewrite map_length, seq_length; auto).
    rewrite (map_nth (fun i => subset_prod (rev xs) i *m a)), seq_nth by auto. reflexivity.
  Qed.

  Lemma testbit_above i n j : i < 2 ^ n -> n <= j -> Nat.testbit i j = false.
  Proof. intros H Hj. apply testbit_small. pose proof (Nat.pow_le_mono_r 2 n j ltac:(lia) Hj). lia. Qed.
  Lemma subset_prod_high (t : list K) b i : b < length t -> i < 2 ^ b -> subset_prod t (2 ^ b + i) = fat t b *f subset_prod t i.
  Proof.
    intros Hb Hi. unfold subset_prod. assert (E : exists d, length t = S b + d) by (exists (length t - S b); lia). destruct E as [d ->].
    assert (Hj : forall j, S b <= j -> Nat.testbit (2 ^ b + i) j = false).
    { intros j Hj. apply (testbit_above _ (S b)); [cbn [Nat.pow]; lia|exact Hj]. }
    induction d as [|d IH].
    - rewrite Nat.add_0_r. cbn [fprod]. rewrite testbit_add_high, testbit_small by exact Hi.
      rewrite (fprod_ext b _ (fun j => if Nat.testbit i j then fat t j else f1)); [ring|].
      intros j Hjb. now rewrite testbit_add_low.
    - rewrite Nat.add_succ_r. cbn [fprod]. rewrite IH, Hj, (testbit_above i b) by (auto; lia). ring.
  Qed.

  Lemma spread_out_fits xs a : fits (length xs) xs (spread_out xs a).
  Proof.
    intros j i Hj Hi.
    assert (Hp : 2 ^ (length xs - 1 - j) + i < 2 ^ length xs).
    { pose proof (Nat.pow_le_mono_r 2 (S (length xs - 1 - j)) (length xs) ltac:(lia) ltac:(lia)) as H. cbn [Nat.pow] in H. lia. }
    rewrite !at_spread_out by lia. rewrite subset_prod_high by (rewrite ?rev_length; lia).
    unfold fat at 1. rewrite rev_nth by lia. replace (length xs - S (length xs - 1 - j)) with j by lia. apply mscale_mul.
  Qed.
  Lemma at_spread_out_0 xs a : at_ (spread_out xs a) 0 = a.
  Proof.
    rewrite at_spread_out by (pose proof (Nat.pow_nonzero 2 (length xs)); lia). unfold subset_prod. rewrite (fprod_ext _ _ (fun _ => f1)).
    - assert (E : forall n, fprod n (fun _ => f1 : K) = f1) by (induction n as [|n IH]; [reflexivity|cbn [fprod]; rewrite IH; ring]). rewrite E. apply mscale_1.
    - intros j _. now rewrite Nat.bits_0.
  Qed.
End Fits.

Section Round.
  Context {K : field} {MA MB MT : module K} (th : MA -> MB -> MT) (Hth : bilinear th).
  Add Field KfRound : (f_theory K).

  (** after the challenges [cs] the vectors [A], [B] (openings for the whole keys) are openings for the folded keys with inner product [t] *)
  Definition right_claim (k : nat) (cs : list K) (A : list MA) (B : list MB) (t : MT) : Prop :=
    fits k (map finv cs) A /\ fits k cs B /\ t = big (2 ^ (k - length cs)) (fun i => th (at_ A i) (at_ B i)).

  Lemma three_terms {M : module K} (x1 x x2 : M) (l : list K) : NoDup l -> 3 <= length l ->
    (forall c, In c l -> c <> f0 /\ c *m x1 +m x +m finv c *m x2 = m0) -> x1 = m0 /\ x = m0 /\ x2 = m0.
  Proof.
    intros Hn Hl H. pose proof (roots_zero l [x2; x; x1] Hn Hl) as HF.
    assert (Hz : Forall (fun c => c = m0) [x2; x; x1]).
    { apply HF. intros c Hc. destruct (H c Hc) as [H0 E]. cbn [mev]. transitivity (c *m (c *m x1 +m x +m finv c *m x2)).
      - module_norm; field; exact H0.
      - rewrite E. apply mscale_0_r. }
    inversion Hz as [|? ? H2 Hz1]; subst. inversion Hz1 as [|? ? H3 Hz2]; subst. inversion Hz2; subst. auto.
  Qed.
  (** c^-2 y0 + c^-1 y1 + y2 + c y3 = 0 *)
  Lemma four_terms {M : module K} (y0 y1 y2 y3 : M) (l : list K) : NoDup l -> 4 <= length l ->
    (forall c, In c l -> c <> f0 /\ y0 +m c *m y1 +m (c *f c) *m y2 +m (c *f c *f c) *m y3 = m0) -> y0 = m0 /\ y1 = m0 /\ y2 = m0 /\ y3 = m0.
  Proof.
    intros Hn Hl H. pose proof (roots_zero l [y0; y1; y2; y3] Hn Hl) as HF.
    assert (Hz : Forall (fun c => c = m0) [y0; y1; y2; y3]).
    { apply HF. intros c Hc. destruct (H c Hc) as [H0 E]. cbn [mev]. etransitivity; [|exact E]. module_norm; ring. }
    inversion Hz as [|? ? H1 Hz1]; subst. inversion Hz1 as [|? ? H2 Hz2]; subst. inversion Hz2 as [|? ? H3 Hz3]; subst. inversion Hz3; subst. auto.
  Qed.

  Lemma fits_three {M : module K} k xs (w1 w w2 : list M) l : NoDup l -> 3 <= length l -> length xs < k ->
    length w1 = 2 ^ k -> length w = 2 ^ k -> length w2 = 2 ^ k ->
    (forall c, In c l -> c <> f0 /\ fits k xs (fold3 c w1 w w2)) -> fits k xs w.
  Proof.
    intros Hn Hl Hk L1 L L2 H j i Hj Hi.
    assert (Hp : 2 ^ (k - 1 - j) + i < 2 ^ k).
    { pose proof (Nat.pow_le_mono_r 2 (S (k - 1 - j)) k ltac:(lia) ltac:(lia)) as Hp. cbn [Nat.pow] in Hp. lia. }
    apply msub_iff. apply (three_terms (at_ w1 (2 ^ (k - 1 - j) + i) -m fat xs j *m at_ w1 i) (at_ w (2 ^ (k - 1 - j) + i) -m fat xs j *m at_ w i)
      (at_ w2 (2 ^ (k - 1 - j) + i) -m fat xs j *m at_ w2 i) l Hn Hl).
    intros c Hc. destruct (H c Hc) as [H0 Hf]. split; [exact H0|]. specialize (Hf j i Hj Hi).
    rewrite !(at_fold3 c w1 w w2 (2 ^ k)) in Hf by (auto; lia). apply (proj2 (msub_iff _ _)) in Hf. etransitivity; [|exact Hf]. module_norm; ring.
  Qed.

  Theorem round_right k cs A1 A A2 B1 B B2 t1 t t2 (l : list K) : NoDup l -> 4 <= length l -> length cs < k ->
    length A1 = 2 ^ k -> length A = 2 ^ k -> length A2 = 2 ^ k -> length B1 = 2 ^ k -> length B = 2 ^ k -> length B2 = 2 ^ k ->
    (forall c, In c l -> c <> f0 /\ right_claim k (cs ++ [c]) (fold3 c A1 A A2) (fold3 c B1 B B2) (c *m t1 +m t +m finv c *m t2)) ->
    right_claim k cs A B t.
  Proof.
    intros Hn Hl Hk LA1 LA LA2 LB1 LB LB2 H.
    set (h := 2 ^ (k - 1 - length cs)).
    assert (Eh : 2 ^ (k - length cs) = h + h) by (unfold h; replace (k - length cs) with (S (k - 1 - length cs)) by lia; cbn [Nat.pow]; lia).
    assert (Hh : h + h <= 2 ^ k) by (rewrite <- Eh; apply Nat.pow_le_mono_r; lia).
    assert (HcA : forall c, In c l -> c <> f0 /\ fits k (map finv cs) (fold3 c A1 A A2) /\
                    forall i, i < h -> at_ (fold3 c A1 A A2) (h + i) = finv c *m at_ (fold3 c A1 A A2) i).
    { intros c Hc. destruct (H c Hc) as [H0 [Hf _]]. split; [exact H0|]. rewrite map_app in Hf. cbn [map] in Hf. apply fits_snoc in Hf. rewrite map_length in Hf. exact Hf. }
    assert (HcB : forall c, In c l -> c <> f0 /\ fits k cs (fold3 c B1 B B2) /\ forall i, i < h -> at_ (fold3 c B1 B B2) (h + i) = c *m at_ (fold3 c B1 B B2) i).
    { intros c Hc. destruct (H c Hc) as [H0 [_ [Hf _]]]. split; [exact H0|]. now apply fits_snoc in Hf. }
    assert (HA : forall i, i < h -> at_ A2 i = m0 /\ at_ A2 (h + i) = at_ A i /\ at_ A1 i = at_ A (h + i) /\ at_ A1 (h + i) = m0).
    { intros i Hi.
      destruct (four_terms (m0 -m at_ A2 i) (at_ A2 (h + i) -m at_ A i) (at_ A (h + i) -m at_ A1 i) (at_ A1 (h + i)) l Hn Hl) as (E1 & E2 & E3 & E4).
      { intros c Hc. destruct (HcA c Hc) as [H0 [_ Hf]]. split; [exact H0|]. specialize (Hf i Hi). rewrite !(at_fold3 c A1 A A2 (2 ^ k)) in Hf by (auto; lia).
        apply (proj2 (msub_iff _ _)) in Hf. apply (f_equal (mscale (c *f c))) in Hf. rewrite mscale_0_r in Hf. etransitivity; [|exact Hf]. module_norm; field; exact H0. }
      apply (proj1 (msub_iff _ _)) in E1, E2, E3. refine (conj _ (conj _ (conj _ _))); congruence. }
    assert (HB : forall i, i < h -> at_ B2 (h + i) = m0 /\ at_ B2 i = at_ B (h + i) /\ at_ B1 (h + i) = at_ B i /\ at_ B1 i = m0).
    { intros i Hi.
      destruct (four_terms (at_ B2 (h + i)) (at_ B (h + i) -m at_ B2 i) (at_ B1 (h + i) -m at_ B i) (m0 -m at_ B1 i) l Hn Hl) as (E1 & E2 & E3 & E4).
      { intros c Hc. destruct (HcB c Hc) as [H0 [_ Hf]]. split; [exact H0|]. specialize (Hf i Hi). rewrite !(at_fold3 c B1 B B2 (2 ^ k)) in Hf by (auto; lia).
        apply (proj2 (msub_iff _ _)) in Hf. apply (f_equal (mscale c)) in Hf. rewrite mscale_0_r in Hf. etransitivity; [|exact Hf]. module_norm; field; exact H0. }
      apply (proj1 (msub_iff _ _)) in E2, E3, E4. refine (conj _ (conj _ (conj _ _))); congruence. }
    split; [|split].
    - apply (fits_three k (map finv cs) A1 A A2 l Hn); auto; [lia|now rewrite map_length|]. intros c Hc. destruct (HcA c Hc) as [H0 [Hf _]]. auto.
    - apply (fits_three k cs B1 B B2 l Hn); auto; [lia|]. intros c Hc. destruct (HcB c Hc) as [H0 [Hf _]]. auto.
    - apply msub_iff. rewrite Eh, big_split.
      set (F := fun u v => big h (fun i => th (at_ A (u + i)) (at_ B (v + i)))).
      change (big h (fun i => th (at_ A i) (at_ B i))) with (F 0 0). change (big h (fun i => th (at_ A (h + i)) (at_ B (h + i)))) with (F h h).
      apply (three_terms (t1 -m F h 0) (t -m (F 0 0 +m F h h)) (t2 -m F 0 h) l Hn); [lia|].
      intros c Hc. destruct (H c Hc) as [H0 [_ [_ Ht]]]. split; [exact H0|].
      rewrite app_length in Ht. cbn [length] in Ht. replace (k - (length cs + 1)) with (k - 1 - length cs) in Ht by lia. fold h in Ht.
      assert (Ef : big h (fun i => th (at_ (fold3 c A1 A A2) i) (at_ (fold3 c B1 B B2) i)) = c *m F h 0 +m (F 0 0 +m F h h) +m finv c *m F 0 h).
      { unfold F. rewrite <- !big_scale, <- !big_add. apply big_ext. intros i Hi. cbn [Nat.add].
        rewrite (at_fold3 c A1 A A2 (2 ^ k)), (at_fold3 c B1 B B2 (2 ^ k)) by (auto; lia).
        destruct (HA i Hi) as (E1 & _ & E3 & _). destruct (HB i Hi) as (_ & E2 & _ & E4). rewrite E1, E3, E2, E4.
        rewrite !mscale_0_r, madd_0_r, madd_0_l.
        rewrite (bil_add_l _ Hth), !(bil_add_r _ Hth), !(bil_scale_l _ Hth), !(bil_scale_r _ Hth). module_norm; field; exact H0. }
      rewrite Ef in Ht. apply (proj2 (msub_iff _ _)) in Ht. etransitivity; [|exact Ht]. module_norm; ring.
  Qed.
End Round.

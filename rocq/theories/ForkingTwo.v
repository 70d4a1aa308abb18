(** Provers of two arguments in a row after a first challenge (used for C96). *)
Require Import List Arith NArith Lia Bool.
Import ListNotations.
Require Import Verif.SpecialFacts Verif.Forking.

Lemma found_complete {C T} (f : C -> option T) l c t : In c l -> f c = Some t -> In (c, t) (found f l).
Proof.
  induction l as [|x l IH]; intros H E; [contradiction|]. cbn [found]. destruct H as [->|H].
  - rewrite E. now left.
  - destruct (f x); [right|]; now apply IH.
Qed.

Section Two.
  Context {Q C T1 A1 B1 T2 A2 B2 : Type}.
  (** the messages of the first argument may depend on the first challenge, those of the second also on the challenges of the first *)
  Variables (next1 : Q -> list C -> T1) (final1 : Q -> list C -> A1 * B1).
  Variables (next2 : Q -> list C -> list C -> T2) (final2 : Q -> list C -> list C -> A2 * B2).
  Variables (ok : Q -> list C -> list C -> bool) (Ch : list C) (k1 k2 : nat).

  (** rewinding to the second argument, to the first one, and to the first challenge *)
  Definition rewind_second (q : Q) (cs1 : list C) : option (tree T2 C A2 B2) :=
    find_tree (next2 q cs1) (final2 q cs1) (ok q cs1) Ch k2 [].
  Definition rewind_first (q : Q) : option (tree T1 C A1 B1) :=
    find_tree (next1 q) (final1 q) (fun cs1 => match rewind_second q cs1 with Some _ => true | None => false end) Ch k1 [].
  Definition rewind_both (q : Q) : option (tree T1 C A1 B1 * tree T2 C A2 B2) :=
    match rewind_first q with
    | Some t1 =>
      match hd_error (paths t1) with
      | Some (_, cs1, _) => match rewind_second q cs1 with Some t2 => Some (t1, t2) | None => None end
      | None => None
      end
    | None => None
    end.

  Lemma rewind_second_paths q cs1 t2 : rewind_second q cs1 = Some t2 -> forall st cs base, In (st, cs, base) (paths t2) ->
    ok q cs1 cs = true /\ length cs = k2 /\ incl cs Ch /\ st = rounds_sent (next2 q cs1) [] cs /\ base = final2 q cs1 cs.
  Proof.
    intros H st cs base Hin. destruct (find_tree_paths _ _ _ _ _ _ _ H _ _ _ Hin) as [H1 [H2 [H3 [H4 H5]]]]. auto.
  Qed.

  Lemma paths_hd {T X Y Z} (t : tree T X Y Z) : exists p, hd_error (paths t) = Some p.
  Proof. pose proof (paths_nonempty t) as H. destruct (paths t) as [|p l]; [congruence|]. now exists p. Qed.

  Lemma rewind_first_paths q t1 : rewind_first q = Some t1 -> forall st cs base, In (st, cs, base) (paths t1) ->
    st = rounds_sent (next1 q) [] cs /\ base = final1 q cs /\ length cs = k1 /\ incl cs Ch /\
    exists cs2, ok q cs cs2 = true /\ length cs2 = k2 /\ incl cs2 Ch.
  Proof.
    intros H st cs base Hin. destruct (find_tree_paths _ _ _ _ _ _ _ H _ _ _ Hin) as [H1 [H2 [H3 [H4 H5]]]]. cbn [app] in *.
    split; [exact H4|]. split; [exact H5|]. split; [exact H1|]. split; [exact H2|].
    destruct (rewind_second q cs) as [t2|] eqn:E; [|discriminate]. destruct (paths_hd t2) as [[[st2 cs2] b2] Hp].
    exists cs2. apply hd_error_some_nil in Hp as Hne. destruct (paths t2) as [|p l] eqn:Ep; [congruence|]. cbn [hd_error] in Hp. injection Hp as ->.
    destruct (rewind_second_paths q cs t2 E st2 cs2 b2) as [G1 [G2 [G3 _]]]; [rewrite Ep; now left|]. auto.
  Qed.

  (** both trees of a branch *)
  Lemma rewind_both_spec q t1 t2 : NoDup Ch -> rewind_both q = Some (t1, t2) ->
    distinct_challenges t1 /\ distinct_challenges t2 /\
    (forall st cs base, In (st, cs, base) (paths t1) ->
       st = rounds_sent (next1 q) [] cs /\ base = final1 q cs /\ exists cs2, ok q cs cs2 = true) /\
    exists cs1, forall st cs base, In (st, cs, base) (paths t2) ->
      st = rounds_sent (next2 q cs1) [] cs /\ base = final2 q cs1 cs /\ ok q cs1 cs = true.
  Proof.
    intros Hn H. unfold rewind_both in H. destruct (rewind_first q) as [t1'|] eqn:E1; [|discriminate].
    destruct (hd_error (paths t1')) as [[[st cs1] base]|] eqn:Eh; [|discriminate].
    destruct (rewind_second q cs1) as [t2'|] eqn:E2; [|discriminate]. injection H as -> ->.
    split; [eapply find_tree_distinct; eauto|]. split; [eapply find_tree_distinct; eauto|]. split.
    - intros st' cs' base' Hin. destruct (rewind_first_paths q t1 E1 _ _ _ Hin) as [H1 [H2 [_ [_ [cs2 [H3 _]]]]]]. eauto.
    - exists cs1. intros st' cs' base' Hin. destruct (rewind_second_paths q cs1 t2 E2 _ _ _ Hin) as [H1 [_ [_ [H2 H3]]]]. auto.
  Qed.

  (** ** Counting *)
  Notation N := (length Ch).
  (** accepted pairs of sequences after the first challenge [q] *)
  Definition accepted_pairs (q : Q) : list (list C * list C) :=
    flat_map (fun cs1 => map (pair cs1) (filter (ok q cs1) (sequences Ch k2))) (sequences Ch k1).

  Lemma flat_map_length {X Y} (f : X -> list Y) l : length (flat_map f l) = list_sum (map (fun x => length (f x)) l).
  Proof. induction l as [|x l IH]; [reflexivity|]. cbn [flat_map map list_sum fold_right]. rewrite app_length, IH. reflexivity. Qed.

  Lemma sum_split {X} (p : X -> bool) (w : X -> nat) big small l :
    (forall x, w x <= big) -> (forall x, p x = false -> w x <= small) ->
    list_sum (map w l) <= length (filter p l) * big + length l * small.
  Proof.
    intros Hb Hs. induction l as [|x l IH]; [cbn; lia|]. cbn [map list_sum fold_right filter length].
    change (fold_right Nat.add 0 (map w l)) with (list_sum (map w l)). pose proof (Hb x).
    destruct (p x) eqn:E; cbn [length]; [nia|]. pose proof (Hs x E). nia.
  Qed.

  Definition lucky : nat := 3 * (k1 + k2) * N ^ (k1 + k2 - 1).

  Lemma lucky_split : 3 * k1 * N ^ (k1 - 1) * N ^ k2 + N ^ k1 * (3 * k2 * N ^ (k2 - 1)) = lucky.
  Proof.
    unfold lucky. destruct k1 as [|a], k2 as [|b].
    - reflexivity.
    - replace (0 + S b - 1) with b by lia. replace (S b - 1) with b by lia. cbn [Nat.add Nat.pow]. rewrite Nat.mul_0_r, Nat.mul_1_l. reflexivity.
    - replace (S a + 0 - 1) with a by lia. replace (S a - 1) with a by lia. rewrite ?Nat.mul_0_r, ?Nat.mul_0_l, ?Nat.mul_0_r, Nat.pow_0_r, Nat.mul_1_r, !Nat.add_0_r. reflexivity.
    - replace (S a + S b - 1) with (S (a + b)) by lia. replace (S a - 1) with a by lia. replace (S b - 1) with b by lia.
      cbn [Nat.pow]. rewrite Nat.pow_add_r. generalize (N ^ a) (N ^ b). intros x y. ring.
  Qed.

  Lemma few_pairs q : rewind_first q = None -> length (accepted_pairs q) <= lucky.
  Proof.
    intros H. unfold rewind_first in H. apply find_tree_none in H. unfold accepted_after in H. cbn [app] in H.
    unfold accepted_pairs. rewrite flat_map_length.
    etransitivity.
    { apply (sum_split (fun cs1 => match rewind_second q cs1 with Some _ => true | None => false end) _ (N ^ k2) (3 * k2 * N ^ (k2 - 1))).
      - intros cs1. rewrite map_length. rewrite <- (sequences_length Ch k2). apply filter_length_le.
      - intros cs1 E. rewrite map_length. destruct (rewind_second q cs1) eqn:E2; [discriminate|].
        unfold rewind_second in E2. apply find_tree_none in E2. exact E2. }
    rewrite sequences_length, <- lucky_split. apply Nat.add_le_mono_r, Nat.mul_le_mono_r, H.
  Qed.

  Lemma pairs_total q : length (accepted_pairs q) <= N ^ (k1 + k2).
  Proof.
    unfold accepted_pairs. rewrite flat_map_length.
    etransitivity; [apply (sum_split (fun _ => true) _ (N ^ k2) 0)|].
    - intros cs1. rewrite map_length, <- (sequences_length Ch k2). apply filter_length_le.
    - discriminate.
    - rewrite sequences_length, Nat.mul_0_r, Nat.add_0_r, Nat.pow_add_r. apply Nat.mul_le_mono_r.
      rewrite <- (sequences_length Ch k1). apply filter_length_le.
  Qed.

  Lemma few_both q : rewind_both q = None -> length (accepted_pairs q) <= lucky.
  Proof.
    intros H. apply few_pairs. unfold rewind_both in H. destruct (rewind_first q) as [t1|] eqn:E1; [|reflexivity]. exfalso.
    destruct (paths_hd t1) as [[[st cs1] base] Eh]. rewrite Eh in H.
    assert (Hin : In (st, cs1, base) (paths t1)).
    { destruct (paths t1) as [|p l]; [discriminate|]. cbn [hd_error] in Eh. injection Eh as ->. now left. }
    destruct (find_tree_paths _ _ _ _ _ _ _ E1 _ _ _ Hin) as [_ [_ [H3 _]]]. cbn [app] in H3.
    destruct (rewind_second q cs1); discriminate.
  Qed.

  (** with enough accepted runs there are more than [m] first challenges for which both trees are found *)
  Lemma enough_branches (Qs : list Q) m (L : list (Q * (list C * list C))) :
    NoDup L ->
    (forall q cs1 cs2, In (q, (cs1, cs2)) L -> In q Qs /\ length cs1 = k1 /\ incl cs1 Ch /\ length cs2 = k2 /\ incl cs2 Ch /\ ok q cs1 cs2 = true) ->
    m * N ^ (k1 + k2) + length Qs * lucky < length L -> m < length (found rewind_both Qs).
  Proof.
    intros HL Hi Hl.
    assert (Hle : length L <= list_sum (map (fun q => length (accepted_pairs q)) Qs)).
    { transitivity (length (flat_map (fun q => map (pair q) (accepted_pairs q)) Qs)).
      - apply NoDup_incl_length; [exact HL|]. intros [q [cs1 cs2]] Hin. destruct (Hi _ _ _ Hin) as [H1 [H2 [H3 [H4 [H5 H6]]]]].
        apply in_flat_map. exists q. split; [exact H1|]. apply in_map. unfold accepted_pairs. apply in_flat_map. exists cs1.
        split; [now apply sequences_in|]. apply in_map, filter_In. split; [now apply sequences_in|exact H6].
      - rewrite flat_map_length. apply Nat.eq_le_incl. f_equal. apply map_ext. intros q. now rewrite map_length. }
    pose proof (sum_two_kinds rewind_both (fun q => length (accepted_pairs q)) (N ^ (k1 + k2)) lucky Qs pairs_total few_both) as Hs.
    destruct (le_lt_dec (length (found rewind_both Qs)) m) as [Hm|Hm]; [|exact Hm]. exfalso.
    assert (length (found rewind_both Qs) * N ^ (k1 + k2) <= m * N ^ (k1 + k2)) by (now apply Nat.mul_le_mono_r). lia.
  Qed.
End Two.

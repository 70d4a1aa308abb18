(** Interactive provers: from many accepted runs to a tree of accepted runs (used for C94).
    A prover is given by its answers: the next round from the challenges so far, the last messages from all challenges. *)
Require Import List Arith NArith Lia Bool Permutation.
Import ListNotations.
Require Import Verif.SpecialFacts.

(** all sequences of [k] challenges from [Ch] *)
Fixpoint sequences {C} (Ch : list C) (k : nat) : list (list C) :=
  match k with
  | O => [[]]
  | S k => flat_map (fun c => map (cons c) (sequences Ch k)) Ch
  end.

(** the rounds a prover sends when the challenges are [cs], [pre] having been sent before *)
Fixpoint rounds_sent {T C} (next : list C -> T) (pre cs : list C) : list T :=
  match cs with
  | [] => []
  | c :: cs => next pre :: rounds_sent next (pre ++ [c]) cs
  end.

(** the challenges for which [f] finds something, with what it finds *)
Fixpoint found {C T} (f : C -> option T) (Ch : list C) : list (C * T) :=
  match Ch with
  | [] => []
  | c :: Ch => match f c with Some t => (c, t) :: found f Ch | None => found f Ch end
  end.

Section Find.
  Context {T C A B : Type} (next : list C -> T) (final : list C -> A * B) (ok : list C -> bool) (Ch : list C).

  (** rewinding: try all challenges of a round until four of them lead to a tree *)
  Fixpoint find_tree (k : nat) (pre : list C) : option (tree T C A B) :=
    match k with
    | O => if ok pre then Some (Leaf (fst (final pre)) (snd (final pre))) else None
    | S k =>
      match found (fun c => find_tree k (pre ++ [c])) Ch with
      | (c1, t1) :: (c2, t2) :: (c3, t3) :: (c4, t4) :: _ => Some (Node (next pre) c1 c2 c3 c4 t1 t2 t3 t4)
      | _ => None
      end
    end.

  Lemma found_spec {U} (f : C -> option U) l c t : In (c, t) (found f l) -> In c l /\ f c = Some t.
  Proof.
    induction l as [|x l IH]; cbn [found]; [contradiction|]. destruct (f x) as [u|] eqn:E.
    - intros [H|H]; [injection H as -> ->; auto using in_eq|]. destruct (IH H). auto using in_cons.
    - intros H. destruct (IH H). auto using in_cons.
  Qed.
  Lemma found_nodup {U} (f : C -> option U) l : NoDup l -> NoDup (map fst (found f l)).
  Proof.
    induction 1 as [|x l Hx Hn IH]; cbn [found map]; [constructor|]. destruct (f x) as [u|]; [|exact IH].
    cbn [map fst]. constructor; [|exact IH]. intros H. apply in_map_iff in H as [[c t] [<- H]]. apply found_spec in H as [H _]. now apply Hx.
  Qed.

  Lemma find_tree_paths k : forall pre t, find_tree k pre = Some t ->
    forall st cs base, In (st, cs, base) (paths t) ->
    length cs = k /\ incl cs Ch /\ ok (pre ++ cs) = true /\ st = rounds_sent next pre cs /\ base = final (pre ++ cs).
  Proof.
    induction k as [|k IH]; intros pre t H st cs base Hin; cbn [find_tree] in H.
    - destruct (ok pre) eqn:E; [|discriminate]. injection H as <-. cbn [paths In] in Hin. destruct Hin as [Hin|[]].
      injection Hin as <- <- <-. rewrite app_nil_r. rewrite <- surjective_pairing. split; [reflexivity|]. split; [intros ? []|]. auto.
    - destruct (found (fun c => find_tree k (pre ++ [c])) Ch) as [|[c1 t1] [|[c2 t2] [|[c3 t3] [|[c4 t4] l]]]] eqn:E; try discriminate.
      injection H as <-. cbn [paths] in Hin.
      assert (Hc : forall c t', In (c, t') (found (fun c => find_tree k (pre ++ [c])) Ch) ->
        In (st, cs, base) (map (fun p : list T * list C * (A * B) => (next pre :: fst (fst p), c :: snd (fst p), snd p)) (paths t')) ->
        length cs = S k /\ incl cs Ch /\ ok (pre ++ cs) = true /\ st = rounds_sent next pre cs /\ base = final (pre ++ cs)).
      { intros c t' Hf Hm. apply found_spec in Hf as [Hc Hf]. apply in_map_iff in Hm as [[[st' cs'] base'] [Hm Hp]].
        cbn [fst snd] in Hm. injection Hm as <- <- <-. destruct (IH _ _ Hf _ _ _ Hp) as [H1 [H2 [H3 [H4 H5]]]].
        rewrite <- app_assoc in H3, H5. cbn [length rounds_sent]. split; [now rewrite H1|].
        split; [intros x [<-|Hx]; auto|]. split; [exact H3|]. split; [now rewrite H4|exact H5]. }
      rewrite E in Hc. rewrite !in_app_iff in Hin.
      destruct Hin as [Hin|[Hin|[Hin|Hin]]]; (eapply Hc; [|exact Hin]); cbn [In]; auto 10.
  Qed.

  Lemma find_tree_distinct k : NoDup Ch -> forall pre t, find_tree k pre = Some t -> distinct_challenges t.
  Proof.
    intros Hn. induction k as [|k IH]; intros pre t H; cbn [find_tree] in H.
    - destruct (ok pre); [|discriminate]. injection H as <-. exact I.
    - pose proof (found_nodup (fun c => find_tree k (pre ++ [c])) Ch Hn) as Hd.
      pose proof (found_spec (fun c => find_tree k (pre ++ [c])) Ch) as Hs.
      destruct (found (fun c => find_tree k (pre ++ [c])) Ch) as [|[c1 t1] [|[c2 t2] [|[c3 t3] [|[c4 t4] l]]]] eqn:E; try discriminate.
      injection H as <-. cbn [distinct_challenges]. cbn [map fst] in Hd. split.
      + inversion Hd as [|? ? N1 H1]; subst. inversion H1 as [|? ? N2 H2]; subst. inversion H2 as [|? ? N3 H3]; subst.
        repeat constructor; cbn [In] in *; intuition.
      + repeat split; (eapply IH, Hs; cbn [In]; eauto 10).
  Qed.

  (** accepted sequences of challenges that continue [pre] *)
  Definition accepted_after (k : nat) (pre : list C) : list (list C) := filter (fun cs => ok (pre ++ cs)) (sequences Ch k).

  Lemma filter_flat_map {X Y} (p : Y -> bool) (f : X -> list Y) l : filter p (flat_map f l) = flat_map (fun x => filter p (f x)) l.
  Proof. induction l as [|x l IH]; [reflexivity|]. cbn [flat_map]. now rewrite filter_app, IH. Qed.
  Lemma filter_map_length {X Y} (p : Y -> bool) (f : X -> Y) l : length (filter p (map f l)) = length (filter (fun x => p (f x)) l).
  Proof. induction l as [|x l IH]; [reflexivity|]. cbn [map filter]. destruct (p (f x)); cbn [length]; now rewrite IH. Qed.
  Lemma sequences_length k : length (sequences Ch k) = length Ch ^ k.
  Proof.
    induction k as [|k IH]; [reflexivity|]. cbn [sequences Nat.pow]. rewrite <- IH. clear IH. generalize (sequences Ch k). intros l.
    induction Ch as [|c Ch' IHc]; [reflexivity|]. cbn [flat_map length Nat.mul]. now rewrite app_length, map_length, IHc.
  Qed.

  Lemma accepted_after_S k pre : length (accepted_after (S k) pre) = list_sum (map (fun c => length (accepted_after k (pre ++ [c]))) Ch).
  Proof.
    unfold accepted_after. cbn [sequences]. generalize (sequences Ch k). intros l.
    induction Ch as [|c Ch' IHc]; [reflexivity|]. cbn [flat_map map list_sum fold_right]. rewrite filter_app, app_length, filter_map_length.
    rewrite IHc. f_equal. f_equal. apply filter_ext. intros cs. now rewrite <- app_assoc.
  Qed.

  Lemma filter_length_le {X} (p : X -> bool) l : length (filter p l) <= length l.
  Proof. induction l as [|x l IH]; [auto|]. cbn [filter]. destruct (p x); cbn [length]; lia. Qed.

  Lemma sum_two_kinds {U} (g : C -> option U) (w : C -> nat) big small l :
    (forall c, w c <= big) -> (forall c, g c = None -> w c <= small) ->
    list_sum (map w l) <= length (found g l) * big + length l * small.
  Proof.
    intros Hb Hs. induction l as [|c l IH]; [cbn; lia|]. cbn [map list_sum fold_right found length].
    pose proof (Hb c). destruct (g c) as [u|] eqn:E; cbn [length].
    - change (fold_right Nat.add 0 (map w l)) with (list_sum (map w l)). nia.
    - pose proof (Hs c E). change (fold_right Nat.add 0 (map w l)) with (list_sum (map w l)). nia.
  Qed.

  Lemma find_tree_none k : forall pre, find_tree k pre = None -> length (accepted_after k pre) <= 3 * k * length Ch ^ (k - 1).
  Proof.
    induction k as [|k IH]; intros pre H; cbn [find_tree] in H.
    - unfold accepted_after. cbn [sequences filter]. rewrite app_nil_r. destruct (ok pre); [discriminate|]. cbn. lia.
    - rewrite accepted_after_S.
      pose proof (sum_two_kinds (fun c => find_tree k (pre ++ [c])) (fun c => length (accepted_after k (pre ++ [c])))
        (length Ch ^ k) (3 * k * length Ch ^ (k - 1)) Ch) as Hs.
      cbv beta in Hs.
      assert (H3 : length (found (fun c => find_tree k (pre ++ [c])) Ch) <= 3).
      { destruct (found _ Ch) as [|[c1 t1] [|[c2 t2] [|[c3 t3] [|[c4 t4] l]]]]; cbn [length]; try lia. discriminate. }
      assert (Hb : forall c, length (accepted_after k (pre ++ [c])) <= length Ch ^ k).
      { intros c. unfold accepted_after. rewrite <- sequences_length. apply filter_length_le. }
      specialize (Hs Hb (fun c => IH (pre ++ [c]))).
      replace (S k - 1) with k by lia.
      assert (He : length Ch * (3 * k * length Ch ^ (k - 1)) <= 3 * k * length Ch ^ k).
      { destruct k as [|k]; [lia|]. replace (S k - 1) with k by lia. cbn [Nat.pow]. lia. }
      etransitivity; [exact Hs|]. etransitivity; [apply Nat.add_le_mono; [apply Nat.mul_le_mono_r, H3|exact He]|]. lia.
  Qed.
End Find.

Lemma sequences_in {C} (Ch : list C) k : forall cs, In cs (sequences Ch k) <-> length cs = k /\ incl cs Ch.
Proof.
  induction k as [|k IH]; intros cs; cbn [sequences].
  - split; [intros [<-|[]]; split; [reflexivity|intros ? []]|]. intros [H _]. destruct cs; [now left|discriminate].
  - rewrite in_flat_map. split.
    + intros [c [Hc H]]. apply in_map_iff in H as [cs' [<- H]]. apply IH in H as [H1 H2]. cbn [length]. split; [now rewrite H1|].
      intros x [<-|Hx]; auto.
    + destruct cs as [|c cs]; intros [H1 H2]; [discriminate|]. injection H1 as H1. exists c. split; [apply H2, in_eq|].
      apply in_map, IH. split; [exact H1|]. intros x Hx. apply H2. now right.
Qed.

(** [L]: different sequences of challenges over [Ch], more than 3k N^(k-1) of the N^k possible ones *)
Lemma find_tree_enough {T C A B} (next : list C -> T) (final : list C -> A * B) (ok : list C -> bool) (Ch : list C) k (L : list (list C)) :
  NoDup L -> (forall cs, In cs L -> length cs = k /\ incl cs Ch /\ ok cs = true) -> 3 * k * length Ch ^ (k - 1) < length L ->
  exists t, find_tree next final ok Ch k [] = Some t.
Proof.
  intros Hn Hi Hl. destruct (find_tree _ _ _ _ _ _) as [t|] eqn:E; [now exists t|].
  apply find_tree_none in E. exfalso.
  assert (length L <= length (accepted_after ok Ch k [])); [|lia].
  apply NoDup_incl_length; [exact Hn|]. intros cs Hc. destruct (Hi cs Hc) as [H1 [H2 H3]].
  unfold accepted_after. apply filter_In. split; [now apply sequences_in|exact H3].
Qed.

(** ** Few bad challenges per round *)
Lemma nodup_prefix {X} (l l' : list X) : NoDup (l ++ l') -> NoDup l.
Proof.
  induction l as [|x l IH]; intros H; [constructor|]. inversion H as [|? ? Hx Hn]; subst. constructor; [|auto].
  intros Hi. apply Hx, in_or_app. now left.
Qed.
Section Few.
  Context {C : Type} (eq_dec : forall x y : C, {x = y} + {x <> y}) (Ch : list C) (NCh : NoDup Ch).

  Definition heads (c : C) (L : list (list C)) : list (list C) :=
    flat_map (fun cs => match cs with [] => [] | x :: cs => if eq_dec x c then [cs] else [] end) L.
  Lemma heads_in c L cs : In cs (heads c L) <-> In (c :: cs) L.
  Proof.
    unfold heads. rewrite in_flat_map. split.
    - intros [[|x l] [H1 H2]]; [contradiction|]. destruct (eq_dec x c) as [->|]; [|contradiction]. destruct H2 as [->|[]]. exact H1.
    - intros H. exists (c :: cs). split; [exact H|]. destruct (eq_dec c c); [now left|contradiction].
  Qed.
  Lemma heads_nodup c L : NoDup L -> NoDup (heads c L).
  Proof.
    induction 1 as [|x l Hx Hn IH]; [constructor|]. unfold heads in *. cbn [flat_map]. destruct x as [|y cs]; [exact IH|].
    destruct (eq_dec y c) as [->|]; [|exact IH]. cbn [app]. constructor; [|exact IH]. intros H. apply heads_in in H. contradiction.
  Qed.
  Lemma heads_total L : (forall cs, In cs L -> exists c cs', cs = c :: cs' /\ In c Ch) -> NoDup L ->
    length L <= list_sum (map (fun c => length (heads c L)) Ch).
  Proof using NCh.
    intros H Hn.
    assert (Hl : length (flat_map (fun c => map (cons c) (heads c L)) Ch) = list_sum (map (fun c => length (heads c L)) Ch)).
    { clear H NCh. induction Ch as [|c l IH]; [reflexivity|]. cbn [flat_map map list_sum fold_right]. rewrite app_length, map_length, IH. reflexivity. }
    rewrite <- Hl. apply NoDup_incl_length; [exact Hn|]. intros cs Hc. destruct (H cs Hc) as [c [cs' [-> Hi]]].
    apply in_flat_map. exists c. split; [exact Hi|]. apply in_map, heads_in, Hc.
  Qed.

  (** at most [m] bad challenges after each prefix *)
  Lemma few_bad m k : forall (bad : list C -> C -> Prop) (L : list (list C)),
    (forall pre c, bad pre c \/ ~ bad pre c) ->
    (forall pre l, length pre < k -> NoDup l -> (forall c, In c l -> bad pre c) -> length l <= m) ->
    NoDup L -> (forall cs, In cs L -> length cs = k /\ incl cs Ch /\ exists pre c post, cs = pre ++ c :: post /\ bad pre c) ->
    length L <= m * k * length Ch ^ (k - 1).
  Proof using NCh eq_dec.
    induction k as [|k IH]; intros bad L Hdec Hfew Hn HL.
    - destruct L as [|cs L]; [cbn; lia|]. destruct (HL cs (in_eq _ _)) as [H [_ [pre [c [post [-> _]]]]]]. rewrite app_length in H. cbn in H. lia.
    - assert (Hh : forall cs, In cs L -> exists c cs', cs = c :: cs' /\ In c Ch).
      { intros cs Hc. destruct (HL cs Hc) as [Hlen [Hi _]]. destruct cs as [|c cs]; [discriminate|]. exists c, cs. split; [reflexivity|]. apply Hi, in_eq. }
      etransitivity; [apply heads_total; auto|].
      assert (Hsplit : exists B G : list C, Permutation Ch (B ++ G) /\ (forall c, In c B -> bad [] c) /\ (forall c, In c G -> ~ bad [] c)).
      { clear - Hdec. induction Ch as [|c l [B [G [Hp [HB HG]]]]]; [exists [], []; split; [constructor|split; intros ? []]|].
        destruct (Hdec [] c) as [Hc|Hc].
        - exists (c :: B), G. split; [now constructor|]. split; [intros x [<-|Hx]; auto|exact HG].
        - exists B, (c :: G). split; [now apply Permutation_cons_app|]. split; [exact HB|intros x [<-|Hx]; auto]. }
      destruct Hsplit as [B [G [Hp [HB HG]]]].
      assert (HlB : length B <= m).
      { apply (Hfew []); [cbn; lia| |exact HB]. apply (nodup_prefix B G). eapply Permutation_NoDup; eauto. }
      assert (Hsum : forall l (w : C -> nat) b, (forall c, In c l -> w c <= b) -> list_sum (map w l) <= length l * b).
      { clear. induction l as [|c l IHl]; intros w b H; [cbn; lia|]. cbn [map list_sum fold_right length].
        pose proof (H c (in_eq _ _)). specialize (IHl w b (fun x Hx => H x (in_cons _ _ _ Hx))).
        change (fold_right Nat.add 0 (map w l)) with (list_sum (map w l)). lia. }
      assert (Hlh : forall c, length (heads c L) <= length Ch ^ k).
      { intros c. rewrite <- sequences_length. apply NoDup_incl_length; [now apply heads_nodup|].
        intros cs Hc. apply heads_in in Hc. apply sequences_in. destruct (HL _ Hc) as [Hlen [Hi _]]. injection Hlen as Hlen.
        split; [exact Hlen|]. intros x Hx. apply Hi. now right. }
      assert (HsB := Hsum B (fun c => length (heads c L)) _ (fun c _ => Hlh c)).
      assert (HsG : list_sum (map (fun c => length (heads c L)) G) <= length G * (m * k * length Ch ^ (k - 1))).
      { apply Hsum. intros c Hc. apply (IH (fun pre x => bad (c :: pre) x)).
        - intros pre x. apply Hdec.
        - intros pre l Hl. apply (Hfew (c :: pre)). cbn [length]. lia.
        - now apply heads_nodup.
        - intros cs Hcs. apply heads_in in Hcs. destruct (HL _ Hcs) as [Hlen [Hi [pre [x [post [Hpre Hbad]]]]]]. injection Hlen as Hlen.
          split; [exact Hlen|]. split; [intros y Hy; apply Hi; now right|].
          destruct pre as [|y pre]; cbn [app] in Hpre; injection Hpre as -> ->; [now apply HG in Hc|]. exists pre, x, post. auto. }
      assert (Hs : list_sum (map (fun c => length (heads c L)) Ch) = list_sum (map (fun c => length (heads c L)) B) + list_sum (map (fun c => length (heads c L)) G)).
      { rewrite <- list_sum_app, <- map_app. clear - Hp. induction Hp; cbn [map list_sum fold_right] in *; unfold list_sum in *; cbn [fold_right]; lia. }
      rewrite Hs. replace (S k - 1) with k by lia.
      assert (HlG : length G <= length Ch) by (rewrite (Permutation_length Hp), app_length; lia).
      assert (He : length G * (m * k * length Ch ^ (k - 1)) <= m * k * length Ch ^ k).
      { etransitivity; [apply Nat.mul_le_mono_r, HlG|]. destruct k as [|k]; [lia|]. replace (S k - 1) with k by lia. cbn [Nat.pow]. lia. }
      assert (length B * length Ch ^ k <= m * length Ch ^ k) by (apply Nat.mul_le_mono_r, HlB). lia.
  Qed.
End Few.

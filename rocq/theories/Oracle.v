(** Hash chains with a random oracle: for how many sequences of answers a chain of queries can meet a bad answer. *)
Require Import List Arith NArith Lia Bool.
Import ListNotations.
Require Import Verif.Algebra Verif.SerFacts Verif.Forking.

(** ** few_bad without deciding what is bad *)
Lemma assign {X} {Q : X -> nat -> Prop} (L : list X) : (forall x, In x L -> exists i, Q x i) ->
  exists A : list (X * nat), map fst A = L /\ forall x i, In (x, i) A -> Q x i.
Proof.
  induction L as [|x L IH]; intros H; [exists []; split; [reflexivity|intros ? ? []]|].
  destruct (H x (in_eq _ _)) as [i Hi]. destruct IH as [A [HA HQ]]; [intros y Hy; apply H; now right|].
  exists ((x, i) :: A). split; [cbn; now rewrite HA|]. intros y j [E|Hy]; [injection E as <- <-; exact Hi|now apply HQ].
Qed.

Lemma few_bad_any {C} (eq_dec : forall x y : C, {x = y} + {x <> y}) (Ch : list C) (NCh : NoDup Ch) m k
    (bad : list C -> C -> Prop) (L : list (list C)) :
  (forall pre l, length pre < k -> NoDup l -> (forall c, In c l -> bad pre c) -> length l <= m) ->
  NoDup L -> (forall cs, In cs L -> length cs = k /\ incl cs Ch /\ exists pre c post, cs = pre ++ c :: post /\ bad pre c) ->
  length L <= m * k * length Ch ^ (k - 1).
Proof.
  intros Hfew Hn HL.
  destruct (@assign _ (fun cs i => exists pre c post, cs = pre ++ c :: post /\ bad pre c /\ length pre = i) L) as [A [HA HQ]].
  { intros cs Hc. destruct (HL cs Hc) as [_ [_ [pre [c [post [E Hb]]]]]]. exists (length pre), pre, c, post. auto. }
  set (bad' := fun pre c => exists cs, In (cs, length pre) A /\ firstn (S (length pre)) cs = pre ++ [c]).
  assert (Hb' : forall pre c, bad' pre c -> bad pre c).
  { intros pre c [cs [Hi Hf]]. destruct (HQ _ _ Hi) as [pre' [c' [post [-> [Hb Hl]]]]].
    replace (S (length pre)) with (length (pre' ++ [c']) + 0) in Hf by (rewrite app_length; cbn; lia).
    replace (pre' ++ c' :: post) with ((pre' ++ [c']) ++ post) in Hf by (now rewrite <- app_assoc).
    rewrite firstn_app_2, firstn_O, app_nil_r in Hf. apply app_inj_tail in Hf as [<- <-]. exact Hb. }
  apply (few_bad eq_dec Ch NCh m k bad' L).
  - intros pre c. unfold bad'. clear - eq_dec. induction A as [|[cs i] A [IH|IH]].
    + right. intros [cs [[] _]].
    + left. destruct IH as [cs' [H1 H2]]. exists cs'. split; [now right|exact H2].
    + destruct (Nat.eq_dec i (length pre)) as [->|Hi]; [destruct (list_eq_dec eq_dec (firstn (S (length pre)) cs) (pre ++ [c])) as [He|He]|].
      * left. exists cs. split; [now left|exact He].
      * right. intros [cs' [[E|H] H2]]; [injection E as <-; contradiction|apply IH; eauto].
      * right. intros [cs' [[E|H] H2]]; [injection E as _ E; contradiction|apply IH; eauto].
  - intros pre l Hp Hl H. apply (Hfew pre l Hp Hl). intros c Hc. now apply Hb', H.
  - exact Hn.
  - intros cs Hc. destruct (HL cs Hc) as [H1 [H2 _]]. split; [exact H1|]. split; [exact H2|].
    rewrite <- HA in Hc. apply in_map_iff in Hc as [[cs' i] [E Hi]]. cbn in E. subst cs'.
    destruct (HQ _ _ Hi) as [pre [c [post [E [_ <-]]]]]. exists pre, c, post. split; [exact E|]. exists cs. split; [exact Hi|].
    rewrite E. replace (S (length pre)) with (length (pre ++ [c]) + 0) by (rewrite app_length; cbn; lia).
    replace (pre ++ c :: post) with ((pre ++ [c]) ++ post) by (now rewrite <- app_assoc).
    now rewrite firstn_app_2, firstn_O, app_nil_r.
Qed.

(** a union of [n] sets of at most [m] elements *)
Lemma union_bound {C} (B : nat -> C -> Prop) n m (l : list C) : NoDup l ->
  (forall c, In c l -> exists j, j < n /\ B j c) ->
  (forall j l', j < n -> NoDup l' -> (forall c, In c l' -> B j c) -> length l' <= m) -> length l <= m * n.
Proof.
  intros Hn Hc Hm. destruct (@assign _ (fun c j => j < n /\ B j c) l Hc) as [A [HA HQ]]. rewrite <- HA in *. clear l HA Hc.
  rewrite map_length. revert A Hn HQ. induction n as [|n IH]; intros A Hn HQ.
  - destruct A as [|[c j] A]; [cbn; lia|]. destruct (HQ c j (in_eq _ _)). lia.
  - assert (Hp : length A = length (filter (fun p => snd p =? n) A) + length (filter (fun p => negb (snd p =? n)) A)).
    { clear. induction A as [|p A IH]; [reflexivity|]. cbn [filter]. destruct (snd p =? n); cbn [negb length]; lia. }
    assert (Hf : forall f, NoDup (map fst (filter f A))).
    { clear - Hn. intros f. induction A as [|p A IH]; [constructor|]. cbn [map] in Hn. inversion Hn as [|? ? Hx Hn']; subst. cbn [filter].
      destruct (f p); [|auto]. cbn [map]. constructor; [|auto]. intros Hi. apply Hx. apply in_map_iff in Hi as [q [E Hq]].
      apply filter_In in Hq as [Hq _]. rewrite <- E. now apply in_map. }
    assert (H1 : length (filter (fun p => snd p =? n) A) <= m).
    { rewrite <- (map_length fst). apply (Hm n); [lia|apply Hf|]. intros c Hc. apply in_map_iff in Hc as [[c' j] [E Hi]].
      apply filter_In in Hi as [Hi Hj]. cbn in E, Hj. apply Nat.eqb_eq in Hj. subst. now apply HQ in Hi as [_ Hi]. }
    assert (H2 : length (filter (fun p => negb (snd p =? n)) A) <= m * n).
    { apply IH; [intros j l' Hj; apply Hm; lia|apply Hf|]. intros c j Hi. apply filter_In in Hi as [Hi Hj]. cbn in Hj.
      apply negb_true_iff, Nat.eqb_neq in Hj. destruct (HQ _ _ Hi). split; [lia|assumption]. }
    lia.
Qed.

(** preimages of at most [n] values, at most [b] of each *)
Lemma fibre_bound {C X} (dec : forall x y : X, {x = y} + {x <> y}) (f : C -> X) b n (l : list C) : NoDup l ->
  (forall x l', NoDup l' -> (forall c, In c l' -> In c l /\ f c = x) -> length l' <= b) ->
  (forall xs, NoDup xs -> (forall x, In x xs -> exists c, In c l /\ f c = x) -> length xs <= n) -> length l <= b * n.
Proof.
  intros Hn Hb Hx. set (xs := nodup dec (map f l)).
  assert (Hxs : length xs <= n).
  { apply Hx; [apply NoDup_nodup|]. intros x Hi. apply nodup_In, in_map_iff in Hi as [c [E Hi]]. eauto. }
  etransitivity; [|apply Nat.mul_le_mono_l, Hxs].
  apply (union_bound (fun j c => In c l /\ nth_error xs j = Some (f c))); [exact Hn| |].
  - intros c Hc. assert (Hi : In (f c) xs) by (apply nodup_In, in_map, Hc). apply In_nth_error in Hi as [j Hj].
    exists j. split; [apply nth_error_Some; congruence|auto].
  - intros j l' Hj Hl H. destruct l' as [|c0 l']; [cbn; lia|]. apply (Hb (f c0)); [exact Hl|].
    intros c Hc. destruct (H c Hc) as [H1 H2]. split; [exact H1|]. destruct (H c0 (in_eq _ _)) as [_ H3]. congruence.
Qed.

(** ** The game *)
Section Game.
  (** an adversary asks the oracle for [adv answers-so-far]; the answers are strings of [dl] bytes *)
  Variables (Om : list bytes) (NOm : NoDup Om) (dl : nat) (Odl : forall c, In c Om -> length c = dl).
  Variable adv : list bytes -> bytes.
  (** a chain: the seed of a statement, then the payload of each element followed by the answer before *)
  Context {X Z : Type}.
  Variables (valid : X -> Prop) (seed : X -> bytes) (pay : Z -> bytes).
  Variable seed_inj : forall x x', valid x -> valid x' -> seed x = seed x' -> x = x'.
  Variable pay_inj : forall z z' d d', pay z ++ d = pay z' ++ d' -> z = z' /\ d = d'.
  (** after the elements and answers [h] of a chain and one more element some answers are bad, but only a few *)
  Variable hit : X -> list (Z * bytes) -> Z -> bytes -> Prop.
  Variable m : nat.
  Variable few : forall x h z l, valid x -> NoDup l -> (forall c, In c l -> In c Om /\ hit x h z c) -> length l <= m.

  Definition query (w : list bytes) (t : nat) : bytes := adv (firstn t w).
  Definition answer (w : list bytes) (t : nat) : bytes := nth t w [].

  (** chains that are asked in order: the last query is the one at time t *)
  Inductive chain (w : list bytes) (x : X) : list (Z * bytes) -> nat -> Prop :=
  | chain_root t : t < length w -> query w t = seed x -> chain w x [] t
  | chain_step h t z t' : chain w x h t -> t < t' -> t' < length w -> query w t' = pay z ++ answer w t ->
      chain w x (h ++ [(z, answer w t')]) t'.

  Lemma chain_depth w x h t : chain w x h t -> length h <= t /\ t < length w.
  Proof using. induction 1 as [t H1 H2|h t z t' H IH H1 H2 H3]; [cbn; lia|]. rewrite app_length. cbn. lia. Qed.

  Lemma firstn_le {A} (l : list A) t t' : t <= t' -> firstn t (firstn t' l) = firstn t l.
  Proof using. intros H. rewrite firstn_firstn. f_equal. lia. Qed.
  Lemma nth_firstn_lt {A} (d : A) t t' : forall l, t < t' -> nth t (firstn t' l) d = nth t l d.
  Proof using. revert t'. induction t as [|t IH]; intros [|t'] [|x l] H; try lia; cbn; auto. apply IH. lia. Qed.

  Lemma chain_cut w x h t u : chain w x h t -> t < u -> chain (firstn u w) x h t.
  Proof using.
    induction 1 as [t H1 H2|h t z t' H IH H1 H2 H3]; intros Hu.
    - apply chain_root; [rewrite firstn_length; lia|]. unfold query. now rewrite firstn_le by lia.
    - replace (answer w t') with (answer (firstn u w) t') by (apply nth_firstn_lt; lia).
      apply (chain_step _ _ h t); [apply IH; lia|exact H1|rewrite firstn_length; lia|].
      unfold query, answer in *. rewrite firstn_le, nth_firstn_lt by lia. exact H3.
  Qed.

  (** without repeated answers a chain is determined by its last time and its length *)
  Lemma nodup_time w t t' : NoDup w -> t < length w -> t' < length w -> answer w t = answer w t' -> t = t'.
  Proof using. intros Hn H1 H2 H. exact (proj1 (NoDup_nth w []) Hn t t' H1 H2 H). Qed.
  Lemma chain_unique w x h t : NoDup w -> valid x -> chain w x h t -> forall x' h', valid x' -> chain w x' h' t -> length h = length h' ->
    x = x' /\ h = h'.
  Proof using seed_inj pay_inj.
    intros Hn Hv. induction 1 as [t H1 H2|h t z t' H IH H1 H2 H3]; intros x' h' Hv' H' Hl.
    - inversion H' as [u U1 U2|h0 u z u' U U1 U2 U3]; subst; [|rewrite app_length in Hl; cbn in Hl; lia].
      split; [|reflexivity]. apply seed_inj; congruence.
    - inversion H' as [u U1 U2|h0 u z0 u' U U1 U2 U3]; subst; [rewrite app_length in Hl; cbn in Hl; lia|].
      rewrite H3 in U3. apply pay_inj in U3 as [<- U3]. rewrite !app_length in Hl. cbn in Hl.
      apply nodup_time in U3 as <-; [|exact Hn|lia|lia]. destruct (IH x' h0 Hv' U ltac:(lia)) as [-> ->]. auto.
  Qed.

  (** [c] is a bad answer to the query after the answers [w]: some query up to this one ends with it, it was given before,
      or it hits a chain *)
  Definition bad (w : list bytes) (c : bytes) : Prop :=
    In c Om /\
    ((exists t p, t <= length w /\ query w t = p ++ c) \/ In c w \/
     (NoDup w /\ exists x h t z, valid x /\ chain w x h t /\ adv w = pay z ++ answer w t /\ hit x h z c)).

  Lemma query_here w : query w (length w) = adv w.
  Proof using. unfold query. now rewrite firstn_all. Qed.

  Definition hits (w : list bytes) (j : nat) (c : bytes) : Prop :=
    In c Om /\ NoDup w /\ exists x h t z, length h = j /\ valid x /\ chain w x h t /\ adv w = pay z ++ answer w t /\ hit x h z c.
  Lemma few_hits w j l : NoDup l -> (forall c, In c l -> hits w j c) -> length l <= m.
  Proof using few seed_inj pay_inj.
    intros Hn H. destruct l as [|c0 l]; [cbn; lia|].
    destruct (H c0 (in_eq _ _)) as [_ [Hw [x [h [t [z [Hj [Hv [Hc [Hq _]]]]]]]]]].
    apply (few x h z); [exact Hv|exact Hn|]. intros c Hi.
    destruct (H c Hi) as [Ho [_ [x' [h' [t' [z' [Hj' [Hv' [Hc' [Hq' Hh]]]]]]]]]]. split; [exact Ho|].
    rewrite Hq in Hq'. apply pay_inj in Hq' as [<- Hq']. pose proof (chain_depth _ _ _ _ Hc). pose proof (chain_depth _ _ _ _ Hc').
    apply nodup_time in Hq' as <-; try lia; [|exact Hw]. destruct (chain_unique w x h t Hw Hv Hc x' h' Hv' Hc' ltac:(congruence)) as [-> ->]. exact Hh.
  Qed.

  (** [n]: a bound on the number of different lengths of chains that end with the same query *)
  Lemma few_bad_answers n w l : 
    (NoDup w -> forall l', NoDup l' -> (forall c, In c l' -> exists j, hits w j c) -> length l' <= n) ->
    NoDup l -> (forall c, In c l -> bad w c) -> length l <= n + 2 * length w + 1.
  Proof using Odl.
    intros Hh Hn H.
    set (tail := fun t => skipn (length (query w t) - dl) (query w t)).
    assert (Hk : exists k, k = S (length w) /\ forall t p c, t <= length w -> In c Om -> query w t = p ++ c -> In c (map tail (seq 0 k))).
    { exists (S (length w)). split; [reflexivity|]. intros t p c Ht Hc Hq. apply in_map_iff. exists t. split; [|apply in_seq; lia].
      unfold tail. rewrite Hq, app_length, (Odl c Hc). replace (length p + dl - dl) with (length p + 0) by lia.
      rewrite skipn_app. replace (length p + 0 - length p) with 0 by lia. rewrite Nat.add_0_r, skipn_all. reflexivity. }
    destruct Hk as [k [Ek Hk]]. set (old := map tail (seq 0 k) ++ w).
    assert (dec : forall x y : bytes, {x = y} + {x <> y}) by (apply list_eq_dec, N.eq_dec).
    assert (Hp : length l = length (filter (fun c => if in_dec dec c old then true else false) l) + length (filter (fun c => if in_dec dec c old then false else true) l)).
    { clear. induction l as [|c l IH]; [reflexivity|]. cbn [filter]. destruct (in_dec dec c old); cbn [length]; lia. }
    assert (H1 : length (filter (fun c => if in_dec dec c old then true else false) l) <= length old).
    { apply NoDup_incl_length; [now apply NoDup_filter|]. intros c Hc. apply filter_In in Hc as [_ Hc]. now destruct (in_dec dec c old). }
    assert (Hold : length old = k + length w) by (unfold old; now rewrite app_length, map_length, seq_length).
    assert (H2 : length (filter (fun c => if in_dec dec c old then false else true) l) <= n).
    { set (l2 := filter _ l).
      assert (Hl2 : forall c, In c l2 -> NoDup w /\ exists j, hits w j c).
      { intros c Hc. unfold l2 in Hc. apply filter_In in Hc as [Hc Ho]. destruct (in_dec dec c old) as [|Hno]; [discriminate|]. clear Ho.
        destruct (H c Hc) as [Hom [[t [p [Ht Hq]]]|[Hin|[Hw [x [h [t [z Hx]]]]]]]].
        - exfalso. apply Hno, in_or_app. left. now apply (Hk t p).
        - exfalso. apply Hno, in_or_app. now right.
        - split; [exact Hw|]. exists (length h). split; [exact Hom|]. split; [exact Hw|]. exists x, h, t, z. auto. }
      destruct l2 as [|c0 l2'] eqn:El; [cbn; lia|]. rewrite <- El in *. destruct (Hl2 c0) as [Hw _]; [rewrite El; apply in_eq|].
      apply Hh; [exact Hw|now apply NoDup_filter|]. intros c Hc. now apply Hl2. }
    lia.
  Qed.

  Lemma few_bad_all w l : NoDup l -> (forall c, In c l -> bad w c) -> length l <= m * length w + 2 * length w + 1.
  Proof using few seed_inj pay_inj Odl.
    intros Hn H. apply few_bad_answers; [|exact Hn|exact H]. intros Hw l' Hl' H'.
    apply (union_bound (hits w)); [exact Hl'| |].
    - intros c Hc. destruct (H' c Hc) as [j Hj]. exists j. split; [|exact Hj].
      destruct Hj as [_ [_ [x [h [t [z [<- [_ [Hch _]]]]]]]]]. apply chain_depth in Hch. lia.
    - intros j l0 _. apply few_hits.
  Qed.

  (** if no seed looks like a payload followed by an answer, all chains that end with a query have the same length *)
  Definition separated : Prop := forall x z d, valid x -> In d Om -> seed x <> pay z ++ d.
  Lemma chain_same_length w x h t : separated -> (forall c, In c w -> In c Om) -> NoDup w -> valid x -> chain w x h t ->
    forall x' h', valid x' -> chain w x' h' t -> length h = length h'.
  Proof using seed_inj pay_inj.
    intros Hs Ho Hn Hv. induction 1 as [t H1 H2|h t z t' H IH H1 H2 H3]; intros x' h' Hv' H'.
    - inversion H' as [u U1 U2|h0 u z u' U U1 U2 U3]; subst; [reflexivity|].
      exfalso. rewrite U3 in H2. apply (Hs x z (answer w u) Hv); [|now rewrite H2]. apply Ho, nth_In. lia.
    - inversion H' as [u U1 U2|h0 u z0 u' U U1 U2 U3]; subst.
      + exfalso. rewrite H3 in U2. apply (Hs x' z (answer w t) Hv'); [|now rewrite U2]. apply Ho, nth_In. lia.
      + rewrite H3 in U3. apply pay_inj in U3 as [<- U3]. apply nodup_time in U3 as <-; [|exact Hn|lia|lia].
        rewrite !app_length, (IH x' h0 Hv' U). reflexivity.
  Qed.
  Lemma few_bad_separated w l : separated -> (forall c, In c w -> In c Om) ->
    NoDup l -> (forall c, In c l -> bad w c) -> length l <= m + 2 * length w + 1.
  Proof using few seed_inj pay_inj Odl.
    intros Hs Ho Hn H. apply few_bad_answers; [|exact Hn|exact H]. intros Hw l' Hl' H'.
    destruct l' as [|c0 l2] eqn:El; [cbn; lia|]. rewrite <- El in *. destruct (H' c0) as [j Hj]; [rewrite El; apply in_eq|].
    apply (few_hits w j); [exact Hl'|]. intros c Hc. destruct (H' c Hc) as [j' Hj']. replace j with j'; [exact Hj'|].
    destruct Hj as [_ [_ [x [h [t [z [<- [Hv [Hch [Hq _]]]]]]]]]]. destruct Hj' as [_ [_ [x' [h' [t' [z' [<- [Hv' [Hch' [Hq' _]]]]]]]]]].
    rewrite Hq in Hq'. apply pay_inj in Hq' as [_ Hq']. pose proof (chain_depth _ _ _ _ Hch). pose proof (chain_depth _ _ _ _ Hch').
    apply nodup_time in Hq' as <-; try lia; [|exact Hw].
    symmetry. apply (chain_same_length w x h t Hs Ho Hw Hv Hch x' h' Hv' Hch').
  Qed.

  (** ** Somebody who computes a chain with a hash function that gives these answers *)
  Variable D : bytes -> bytes.
  Variable w : list bytes.
  Hypothesis Ow : incl w Om.
  Hypothesis Dw : forall t, t < length w -> D (query w t) = answer w t.
  Definition asked (q : bytes) : Prop := exists t, t < length w /\ query w t = q.
  Definition digest_after x zs : bytes := hash_chain D (seed x) (map pay zs).
  Definition digests x zs : list (Z * bytes) :=
    combine zs (map (fun j => digest_after x (firstn (S j) zs)) (seq 0 (length zs))).

  Lemma digests_snoc x zs z : digests x (zs ++ [z]) = digests x zs ++ [(z, digest_after x (zs ++ [z]))].
  Proof using.
    unfold digests. rewrite app_length. cbn [length]. rewrite Nat.add_1_r, seq_S, map_app. cbn [map Nat.add].
    assert (E : map (fun j => digest_after x (firstn (S j) (zs ++ [z]))) (seq 0 (length zs)) = map (fun j => digest_after x (firstn (S j) zs)) (seq 0 (length zs))).
    { apply map_ext_in. intros j Hj. apply in_seq in Hj. rewrite firstn_app. replace (S j - length zs) with 0 by lia. now rewrite firstn_O, app_nil_r. }
    rewrite E, (firstn_all2 (n := S (length zs))) by (rewrite app_length; cbn; lia).
    clear E. generalize (digest_after x (zs ++ [z])). intros d.
    assert (El : length zs = length (map (fun j => digest_after x (firstn (S j) zs)) (seq 0 (length zs)))) by now rewrite map_length, seq_length.
    revert El. generalize (map (fun j => digest_after x (firstn (S j) zs)) (seq 0 (length zs))). clear.
    induction zs as [|y zs IH]; intros [|e l] El; try discriminate; [reflexivity|]. cbn [app combine]. f_equal. apply IH. now injection El.
  Qed.

  Lemma map_fst_combine {A B} (l : list A) : forall l' : list B, length l = length l' -> map fst (combine l l') = l.
  Proof using. induction l as [|x l IH]; intros [|y l'] H; try discriminate; cbn; [reflexivity|]. f_equal. apply IH. now injection H. Qed.
  Lemma map_snd_combine {A B C} (f : B -> C) (l : list A) : forall l' : list B, length l = length l' -> map (fun p => f (snd p)) (combine l l') = map f l'.
  Proof using. induction l as [|x l IH]; intros [|y l'] H; try discriminate; cbn; [reflexivity|]. f_equal. apply IH. now injection H. Qed.
  Lemma digests_fst x zs : map fst (digests x zs) = zs.
  Proof using. unfold digests. apply map_fst_combine. now rewrite map_length, seq_length. Qed.
  Lemma digests_snd {C} (f : bytes -> C) x zs :
    map (fun p => f (snd p)) (digests x zs) = map (fun j => f (digest_after x (firstn (S j) zs))) (seq 0 (length zs)).
  Proof using. unfold digests. rewrite map_snd_combine, map_map by (now rewrite map_length, seq_length). reflexivity. Qed.

  Definition bad_somewhere : Prop := exists pre c post, w = pre ++ c :: post /\ bad pre c.
  Lemma at_time t : t < length w -> w = firstn t w ++ answer w t :: skipn (S t) w.
  Proof using.
    clear. unfold answer. revert t. induction w as [|c l IH]; intros [|t] H; cbn in *; try lia; auto. f_equal. apply IH. lia.
  Qed.
  (** the next query of a chain is asked before the answer it contains *)
  Lemma asked_early t t' p : t < length w -> t' <= t -> query w t' = p ++ answer w t -> bad_somewhere.
  Proof using Ow.
    intros Ht Ht' Hq. exists (firstn t w), (answer w t), (skipn (S t) w). split; [now apply at_time|].
    split; [apply Ow, nth_In, Ht|]. left. exists t', p. rewrite firstn_length. split; [lia|]. unfold query in *. now rewrite firstn_le by lia.
  Qed.
  Lemma digest_snoc x zs z : digest_after x (zs ++ [z]) = D (pay z ++ digest_after x zs).
  Proof using. unfold digest_after, hash_chain. rewrite map_app, fold_left_app. reflexivity. Qed.

  Lemma chain_or_bad x zs : valid x -> asked (seed x) ->
    (forall j z, nth_error zs j = Some z -> asked (pay z ++ digest_after x (firstn j zs))) ->
    bad_somewhere \/ exists t, chain w x (digests x zs) t /\ answer w t = digest_after x zs.
  Proof using Ow Dw.
    intros Hv Hs. induction zs as [|z zs IH] using rev_ind; intros Ha.
    - right. destruct Hs as [t [Ht Hq]]. exists t. split; [now apply chain_root|]. rewrite <- Dw, Hq by exact Ht. reflexivity.
    - destruct IH as [Hb|[t [Hc Hd]]]; [|now left|].
      { intros j y Hj. assert (j < length zs) by (apply nth_error_Some; congruence). specialize (Ha j y).
        rewrite nth_error_app1, firstn_app in Ha by assumption. replace (j - length zs) with 0 in Ha by lia.
        rewrite firstn_O, app_nil_r in Ha. auto. }
      destruct (Ha (length zs) z) as [t' [Ht' Hq]]; [rewrite nth_error_app2, Nat.sub_diag by lia; reflexivity|].
      rewrite firstn_app, Nat.sub_diag, firstn_all, firstn_O, app_nil_r, <- Hd in Hq.
      destruct (Nat.le_gt_cases t' t) as [Hl|Hl].
      + left. pose proof (chain_depth _ _ _ _ Hc). apply (asked_early t t' (pay z)); [lia|exact Hl|exact Hq].
      + right. exists t'. assert (Hd' : answer w t' = digest_after x (zs ++ [z])) by (rewrite <- Dw, Hq, Hd by exact Ht'; symmetry; apply digest_snoc).
        split; [|exact Hd']. rewrite digests_snoc, <- Hd'. now apply (chain_step _ _ (digests x zs) t).
  Qed.

  Lemma repeated (l : list bytes) : NoDup l \/ exists p c q, l = p ++ c :: q /\ In c p.
  Proof using.
    clear. induction l as [|c l IH] using rev_ind; [left; constructor|].
    destruct IH as [Hn|[p [c' [q [-> Hi]]]]]; [|right; exists p, c', (q ++ [c]); split; [now rewrite <- app_assoc|exact Hi]].
    destruct (in_dec (list_eq_dec N.eq_dec) c l) as [Hi|Hi]; [right; exists l, c, []; auto|].
    left. apply (NoDup_Add (Add_app c l [])). rewrite app_nil_r. auto.
  Qed.

  (** if the answer to one of the elements hits, then one of the answers is bad *)
  Lemma hit_is_bad x zs i z : valid x -> asked (seed x) ->
    (forall j z, nth_error zs j = Some z -> asked (pay z ++ digest_after x (firstn j zs))) ->
    nth_error zs i = Some z -> hit x (digests x (firstn i zs)) z (digest_after x (firstn (S i) zs)) -> bad_somewhere.
  Proof using Ow Dw.
    intros Hv Hs Ha Hi Hh. assert (Hil : i < length zs) by (apply nth_error_Some; congruence).
    destruct (chain_or_bad x (firstn i zs) Hv Hs) as [Hb|[t [Hc Hd]]]; [|exact Hb|].
    { intros j y Hj. assert (Hj' : j < length (firstn i zs)) by (apply nth_error_Some; congruence). rewrite firstn_length in Hj'.
      rewrite firstn_le by lia. apply Ha. rewrite <- Hj. rewrite <- (firstn_skipn i zs) at 1. apply nth_error_app1. rewrite firstn_length. lia. }
    destruct (Ha i z Hi) as [t' [Ht' Hq]]. rewrite <- Hd in Hq. pose proof (chain_depth _ _ _ _ Hc) as [_ Htw].
    destruct (Nat.le_gt_cases t' t) as [Hl|Hl]; [apply (asked_early t t' (pay z)); [lia|exact Hl|exact Hq]|].
    destruct (repeated (firstn t' w)) as [Hn|[p [c [q [E Hin]]]]].
    - exists (firstn t' w), (answer w t'), (skipn (S t') w). split; [now apply at_time|]. split; [apply Ow, nth_In, Ht'|].
      right. right. split; [exact Hn|]. exists x, (digests x (firstn i zs)), t, z. split; [exact Hv|].
      split; [now apply chain_cut|]. split; [unfold query in Hq; rewrite Hq; unfold answer; now rewrite nth_firstn_lt by lia|].
      replace (answer w t') with (digest_after x (firstn (S i) zs)); [exact Hh|].
      rewrite <- Dw, Hq, Hd by exact Ht'. rewrite <- digest_snoc. f_equal.
      clear - Hi. revert i Hi. induction zs as [|y l IH]; intros [|i] Hi; try discriminate; cbn in *; [congruence|]. f_equal. now apply IH.
    - assert (Ew : w = p ++ c :: q ++ skipn t' w) by (rewrite <- (firstn_skipn t' w) at 1; rewrite E, <- app_assoc; reflexivity).
      exists p, c, (q ++ skipn t' w). split; [exact Ew|].
      split; [|right; now left]. apply Ow. rewrite Ew. apply in_or_app. right. now left.
  Qed.
End Game.

(** Chains of queries to a random oracle in which a query contains the value derived from the answer before (not the answer
    itself), as in GIPA: for how many sequences of answers a chain can meet a bad value. *)
Require Import List Arith NArith Lia Bool.
Import ListNotations.
Require Import Verif.Algebra Verif.SerFacts Verif.Forking Verif.Oracle.

(** elements of two kinds *)
Lemma two_kinds {C} (P Q : C -> Prop) a b (l : list C) : NoDup l -> (forall c, In c l -> P c \/ Q c) ->
  (forall l', NoDup l' -> (forall c, In c l' -> P c) -> length l' <= a) ->
  (forall l', NoDup l' -> (forall c, In c l' -> Q c) -> length l' <= b) -> length l <= a + b.
Proof.
  intros Hn H Ha Hb.
  assert (Hs : exists l1 l2, NoDup l1 /\ NoDup l2 /\ length l = length l1 + length l2 /\ incl l1 l /\ incl l2 l /\
                 (forall c, In c l1 -> P c) /\ (forall c, In c l2 -> Q c)).
  { clear Ha Hb. induction l as [|c l IH].
    - exists [], []. repeat split; try constructor; try (intros ? []); auto.
    - inversion Hn as [|? ? Hc Hn']; subst. destruct IH as (l1 & l2 & N1 & N2 & E & I1 & I2 & H1 & H2); [exact Hn'|intros x Hx; apply H; now right|].
      destruct (H c (in_eq _ _)) as [Hp|Hq].
      + exists (c :: l1), l2. split; [constructor; auto|]. split; [exact N2|]. split; [cbn; lia|].
        split; [intros x [<-|Hx]; [now left|right; auto]|]. split; [intros x Hx; right; auto|]. split; [intros x [<-|Hx]; auto|auto].
      + exists l1, (c :: l2). split; [exact N1|]. split; [constructor; auto|]. split; [cbn; lia|].
        split; [intros x Hx; right; auto|]. split; [intros x [<-|Hx]; [now left|right; auto]|]. split; [auto|intros x [<-|Hx]; auto]. }
  destruct Hs as (l1 & l2 & N1 & N2 & E & _ & _ & H1 & H2). rewrite E. apply Nat.add_le_mono; auto.
Qed.

Section Game.
  Context {V Z R : Type} (Vdec : forall x y : V, {x = y} + {x <> y}) (v0 : V).
  Variables (Om : list bytes) (val : bytes -> V) (okz : Z -> Prop) (pay : nat -> V -> Z -> bytes).
  Variable pay_inj : forall n n' v v' z z', okz z -> okz z' -> pay n v z = pay n' v' z' -> v = v' /\ z = z'.
  (** the adversary asks for [adv answers-so-far] and remarks [rep answers-so-far] *)
  Variables (adv : list bytes -> bytes) (rep : list bytes -> R).
  Variable beta : nat.
  Variable spread : forall x l, x <> v0 -> NoDup l -> (forall c, In c l -> In c Om /\ val c = x) -> length l <= beta.
  Variable hit : list (Z * R * V) -> Z -> R -> V -> Prop.
  Variable m : nat.
  Variable few : forall h z r xs, NoDup xs -> (forall x, In x xs -> x <> v0 /\ hit h z r x) -> length xs <= m.

  Notation query := (query adv).
  Definition end_value (h : list (Z * R * V)) : V := last (map snd h) v0.

  (** rounds asked in order, before time [t]; [n] is any nonce *)
  Inductive path (w : list bytes) : list (Z * R * V) -> nat -> Prop :=
  | path_nil : path w [] 0
  | path_snoc h t t' n z : path w h t -> t <= t' -> t' < length w -> okz z -> query w t' = pay n (end_value h) z ->
      val (answer w t') <> v0 -> path w (h ++ [(z, rep (firstn t' w), val (answer w t'))]) (S t').

  Lemma end_value_snoc h z r v : end_value (h ++ [(z, r, v)]) = v.
  Proof using. unfold end_value. rewrite map_app. cbn [map snd]. apply last_last. Qed.

  Lemma path_cut w h t u : path w h t -> t <= u -> path (firstn u w) h t.
  Proof using.
    induction 1 as [|h t t' n z H IH H1 H2 Hz H3 H4]; intros Hu; [constructor|].
    replace (answer w t') with (answer (firstn u w) t') by (apply nth_firstn_lt; lia).
    rewrite <- (firstn_le w t' u) by lia.
    apply (path_snoc _ h t t' n z); [apply IH; lia|exact H1|rewrite firstn_length; lia|exact Hz| |].
    - unfold Oracle.query in *. now rewrite firstn_le by lia.
    - unfold answer in *. now rewrite nth_firstn_lt by lia.
  Qed.

  Definition distinct (w : list bytes) : Prop :=
    forall t t', t < length w -> t' < length w -> val (answer w t) <> v0 -> val (answer w t) = val (answer w t') -> t = t'.

  Lemma path_unique w h t : distinct w -> path w h t -> forall h' t', path w h' t' -> end_value h = end_value h' -> h = h'.
  Proof using pay_inj.
    intros Hd. induction 1 as [|h t u n z H IH H1 H2 Hz H3 H4]; intros h' t' H' E.
    - destruct H' as [|h' s s' n' z' H' U1 U2 Uz U3 U4]; [reflexivity|]. exfalso. rewrite end_value_snoc in E. apply U4. symmetry. exact E.
    - destruct H' as [|h' s s' n' z' H' U1 U2 Uz U3 U4]; [exfalso; rewrite end_value_snoc in E; apply H4; exact E|].
      rewrite !end_value_snoc in E. apply Hd in E; auto. subst s'. rewrite H3 in U3. apply pay_inj in U3 as [U3 <-]; auto.
      now rewrite (IH h' s H' U3).
  Qed.

  (** [c] is a bad answer to the query after [w]: its value is contained in a query up to this one, it was derived from an earlier
      answer, or it hits *)
  Definition badly (w : list bytes) (x : V) : Prop :=
    (exists t n z, t <= length w /\ okz z /\ query w t = pay n x z) \/
    (exists t, t < length w /\ val (answer w t) = x) \/
    (distinct w /\ exists h s n z, path w h s /\ okz z /\ adv w = pay n (end_value h) z /\ hit h z (rep w) x).
  Definition bad (w : list bytes) (c : bytes) : Prop := In c Om /\ val c <> v0 /\ badly w (val c).

  Lemma few_bad_values w xs : NoDup xs -> (forall x, In x xs -> x <> v0 /\ badly w x) -> length xs <= S (length w) + (length w + m).
  Proof using few pay_inj.
    intros Hn H.
    apply (two_kinds (fun x => exists t n z, t <= length w /\ okz z /\ query w t = pay n x z)
             (fun x => x <> v0 /\ ((exists t, t < length w /\ val (answer w t) = x) \/
                (distinct w /\ exists h s n z, path w h s /\ okz z /\ adv w = pay n (end_value h) z /\ hit h z (rep w) x)))); [exact Hn| | |].
    - intros x Hx. destruct (H x Hx) as [Hx0 [Hb|Hb]]; [now left|right; split; auto].
    - clear xs Hn H. intros xs Hn H. rewrite <- (Nat.mul_1_l (S (length w))).
      apply (union_bound (fun t x => exists n z, okz z /\ query w t = pay n x z)); [exact Hn| |].
      + intros x Hx. destruct (H x Hx) as (t & n & z & Ht & Hz & Hq). exists t. split; [lia|eauto].
      + intros t l _ Hl Hx. destruct l as [|x [|y l]]; [cbn; lia|cbn; lia|]. exfalso. inversion Hl as [|? ? Hne _]; subst. apply Hne. left.
        destruct (Hx x (in_eq _ _)) as (n & z & Hz & Hq). destruct (Hx y) as (n' & z' & Hz' & Hq'); [right; now left|].
        rewrite Hq in Hq'. apply pay_inj in Hq' as [-> _]; auto.
    - clear xs Hn H. intros xs Hn H.
      apply (two_kinds (fun x => exists t, t < length w /\ val (answer w t) = x)
               (fun x => x <> v0 /\ distinct w /\ exists h s n z, path w h s /\ okz z /\ adv w = pay n (end_value h) z /\ hit h z (rep w) x)); [exact Hn| | |].
      + intros x Hx. destruct (H x Hx) as [Hx0 [Hb|Hb]]; [now left|right; split; auto].
      + clear xs Hn H. intros xs Hn H. rewrite <- (Nat.mul_1_l (length w)). apply (union_bound (fun t x => val (answer w t) = x)); [exact Hn| |].
        * intros x Hx. apply H, Hx.
        * intros t l _ Hl Hx. destruct l as [|x [|y l]]; [cbn; lia|cbn; lia|]. exfalso. inversion Hl as [|? ? Hne _]; subst. apply Hne. left.
          rewrite <- (Hx x (in_eq _ _)). symmetry. apply Hx. right. now left.
      + clear xs Hn H. intros xs Hn H. destruct xs as [|x0 xs0] eqn:Ex; [cbn; lia|]. rewrite <- Ex in *.
        destruct (H x0) as (_ & Hd & h & s & n & z & Hp & Hz & Hq & _); [rewrite Ex; apply in_eq|].
        apply (few h z (rep w)); [exact Hn|]. intros x Hx. destruct (H x Hx) as (Hx0 & _ & h' & s' & n' & z' & Hp' & Hz' & Hq' & Hh). split; [exact Hx0|].
        rewrite Hq in Hq'. apply pay_inj in Hq' as [Eu <-]; auto. now rewrite (path_unique w h s Hd Hp h' s' Hp' Eu).
  Qed.

  Lemma few_bad_answers w l : NoDup l -> (forall c, In c l -> bad w c) -> length l <= beta * (S (length w) + (length w + m)).
  Proof using few pay_inj spread Vdec.
    intros Hn H. apply (fibre_bound Vdec val); [exact Hn| |].
    - intros x l' Hl' Hx. destruct l' as [|c0 l0] eqn:El; [cbn; lia|]. rewrite <- El in *. apply (spread x); [|exact Hl'|].
      + destruct (Hx c0) as [Hi <-]; [rewrite El; apply in_eq|]. apply (H c0 Hi).
      + intros c Hc. destruct (Hx c Hc) as [Hi Ev]. split; [apply (H c Hi)|exact Ev].
    - intros xs Hxs Hx. apply (few_bad_values w xs Hxs). intros x Hi. destruct (Hx x Hi) as [c [Hc <-]]. apply (H c Hc).
  Qed.

  Lemma distinct_or_repeated (w : list bytes) : distinct w \/ exists p c q t, w = p ++ c :: q /\ val c <> v0 /\ t < length p /\ val (answer p t) = val c.
  Proof using Vdec.
    induction w as [|c w IH] using rev_ind; [left; intros t t' Ht; cbn in Ht; lia|].
    destruct IH as [Hd|(p & c' & q & t & -> & Hc & Ht & E)]; [|right; exists p, c', (q ++ [c]), t; rewrite <- app_assoc; auto].
    destruct (Vdec (val c) v0) as [E0|E0].
    - left. intros t t' Ht Ht' Hv E. rewrite app_length in Ht, Ht'. cbn [length] in *. unfold answer in *.
      assert (Hl : t < length w).
      { destruct (Nat.lt_ge_cases t (length w)); [assumption|]. exfalso. apply Hv. replace t with (length w) by lia. now rewrite app_nth2, Nat.sub_diag by lia. }
      assert (Hl' : t' < length w).
      { destruct (Nat.lt_ge_cases t' (length w)); [assumption|]. exfalso. apply Hv. rewrite E. replace t' with (length w) by lia. now rewrite app_nth2, Nat.sub_diag by lia. }
      rewrite !app_nth1 in * by assumption. now apply Hd.
    - destruct (in_dec Vdec (val c) (map val w)) as [Hi|Hi].
      + right. apply (In_nth _ _ (val [])) in Hi as [t [Ht E]]. rewrite map_length in Ht. rewrite map_nth in E. exists w, c, [], t. auto.
      + left. assert (Hno : forall t, t < length w -> val (nth t w []) <> val c).
        { intros t Ht E. apply Hi. rewrite <- E. now apply in_map, nth_In. }
        intros t t' Ht Ht' Hv E. rewrite app_length in Ht, Ht'. cbn [length] in *. unfold answer in *.
        destruct (Nat.lt_ge_cases t (length w)) as [Hl|Hl], (Nat.lt_ge_cases t' (length w)) as [Hl'|Hl'].
        * rewrite !app_nth1 in * by assumption. now apply Hd.
        * exfalso. rewrite app_nth1 in E by assumption. replace t' with (length w) in E by lia. rewrite app_nth2, Nat.sub_diag in E by lia. now apply (Hno t).
        * exfalso. rewrite (app_nth1 _ _ _ Hl') in E. replace t with (length w) in E by lia. rewrite app_nth2, Nat.sub_diag in E by lia. now apply (Hno t').
        * lia.
  Qed.

  Variable w : list bytes.
  Hypothesis Ow : incl w Om.
  Definition bad_somewhere : Prop := exists pre c post, w = pre ++ c :: post /\ bad pre c.

  Lemma bad_at t : t < length w -> val (answer w t) <> v0 -> badly (firstn t w) (val (answer w t)) -> bad_somewhere.
  Proof using Ow.
    intros Ht Hv Hb. exists (firstn t w), (answer w t), (skipn (S t) w). split; [now apply at_time|]. split; [apply Ow, nth_In, Ht|auto].
  Qed.

  (** rounds [zs] asked at the times [ts] (in any order), each query containing the value derived from the answer before *)
  Fixpoint linked (v : V) (zs : list Z) (ts : list nat) : Prop :=
    match zs, ts with
    | [], [] => True
    | z :: zs, t :: ts => t < length w /\ okz z /\ (exists n, query w t = pay n v z) /\ val (answer w t) <> v0 /\ linked (val (answer w t)) zs ts
    | _, _ => False
    end.
  Definition rounds (zs : list Z) (ts : list nat) : list (Z * R * V) :=
    map (fun p => (fst p, rep (firstn (snd p) w), val (answer w (snd p)))) (combine zs ts).

  Lemma linked_snoc z t zs : forall v ts, linked v (zs ++ [z]) (ts ++ [t]) <->
    linked v zs ts /\ t < length w /\ okz z /\ (exists n, query w t = pay n (last (map (fun t => val (answer w t)) ts) v) z) /\ val (answer w t) <> v0.
  Proof using.
    clear - val adv okz pay v0 w. induction zs as [|y zs IH]; intros v [|s ts]; cbn [app linked map last].
    - tauto.
    - split; [|tauto]. intros (_ & _ & _ & _ & H). destruct ts; contradiction.
    - split; [|tauto]. intros (_ & _ & _ & _ & H). destruct zs; contradiction.
    - rewrite IH.
      assert (El : last (map (fun t => val (answer w t)) ts) (val (answer w s)) =
                   match map (fun t => val (answer w t)) ts with [] => val (answer w s) | _ :: _ => last (map (fun t => val (answer w t)) ts) v end).
      { clear. induction ts as [|r ts IH]; [reflexivity|]. cbn [map last] in *. destruct (map (fun t => val (answer w t)) ts); [reflexivity|exact IH]. }
      rewrite El. tauto.
  Qed.

  Lemma linked_length zs : forall v ts, linked v zs ts -> length zs = length ts.
  Proof using. induction zs as [|z zs IH]; intros v [|t ts] H; cbn in H; try contradiction; [reflexivity|]. cbn. f_equal. eapply IH. apply H. Qed.

  Lemma rounds_snoc zs ts z t : length zs = length ts ->
    rounds (zs ++ [z]) (ts ++ [t]) = rounds zs ts ++ [(z, rep (firstn t w), val (answer w t))].
  Proof using.
    intros H. unfold rounds. rewrite <- map_app with (l' := [(z, t)]). f_equal. revert ts H. induction zs as [|y zs IH]; intros [|s ts] H; try discriminate; [reflexivity|].
    cbn [app combine]. f_equal. apply IH. now injection H.
  Qed.

  Lemma end_value_rounds zs ts : length zs = length ts -> end_value (rounds zs ts) = last (map (fun t => val (answer w t)) ts) v0.
  Proof using.
    intros H. unfold end_value, rounds. rewrite map_map. cbn [snd]. f_equal. revert ts H. induction zs as [|y zs IH]; intros [|s ts] H; try discriminate; [reflexivity|].
    cbn [combine map snd]. f_equal. apply IH. now injection H.
  Qed.

  Lemma path_end h s : path w h s -> s = 0 \/ exists u, s = S u /\ u < length w /\ end_value h = val (answer w u) /\ val (answer w u) <> v0.
  Proof using. destruct 1 as [|h t u n z H H1 H2 Hz H3 H4]; [now left|]. right. exists u. rewrite end_value_snoc. auto. Qed.

  Lemma asked_early s u t n z h : path w h s -> s = S u -> t <= u -> okz z -> query w t = pay n (end_value h) z -> bad_somewhere.
  Proof using Ow.
    intros Hp Es Ht Hz Hq. destruct (path_end h s Hp) as [E|(u' & E & Hu & Ee & Hv)]; [lia|]. replace u' with u in * by lia.
    apply (bad_at u Hu Hv). left. exists t, n, z. rewrite firstn_length. split; [lia|]. split; [exact Hz|]. rewrite <- Ee, <- Hq.
    unfold Oracle.query. now rewrite firstn_le by lia.
  Qed.

  (** either in order or bad *)
  Lemma path_or_bad zs : forall ts, linked v0 zs ts -> bad_somewhere \/ exists s, path w (rounds zs ts) s.
  Proof using Ow.
    induction zs as [|z zs IH] using rev_ind; intros ts H.
    - destruct ts; [|contradiction]. right. exists 0. constructor.
    - destruct ts as [|t ts _] using rev_ind; [destruct zs; contradiction|].
      apply linked_snoc in H as (H & Ht & Hz & [n Hq] & Hv). pose proof (linked_length _ _ _ H) as El.
      destruct (IH ts H) as [Hb|[s Hp]]; [now left|].
      rewrite <- (end_value_rounds zs ts El) in Hq.
      destruct (Nat.le_gt_cases s t) as [Hst|Hst].
      + right. exists (S t). rewrite rounds_snoc by exact El. now apply (path_snoc w _ s t n z).
      + left. apply (asked_early s (s - 1) t n z _ Hp); [lia|lia|exact Hz|exact Hq].
  Qed.

  (** if the value of one of the rounds hits, then one of the answers is bad *)
  Lemma hit_is_bad zs ts z t : linked v0 (zs ++ [z]) (ts ++ [t]) -> hit (rounds zs ts) z (rep (firstn t w)) (val (answer w t)) -> bad_somewhere.
  Proof using Ow Vdec.
    intros H Hh. apply linked_snoc in H as (H & Ht & Hz & [n Hq] & Hv). pose proof (linked_length _ _ _ H) as El.
    destruct (path_or_bad zs ts H) as [Hb|[s Hp]]; [exact Hb|]. rewrite <- (end_value_rounds zs ts El) in Hq.
    destruct (Nat.le_gt_cases s t) as [Hst|Hst]; [|apply (asked_early s (s - 1) t n z _ Hp); [lia|lia|exact Hz|exact Hq]].
    destruct (distinct_or_repeated (firstn t w)) as [Hd|(p & c & q & u & E & Hc & Hu & Ev)].
    - apply (bad_at t Ht Hv). right. right. split; [exact Hd|]. exists (rounds zs ts), s, n, z. split; [now apply path_cut|]. split; [exact Hz|].
      split; [exact Hq|exact Hh].
    - assert (Ew : w = p ++ c :: q ++ skipn t w) by (rewrite <- (firstn_skipn t w) at 1; rewrite E, <- app_assoc; reflexivity).
      exists p, c, (q ++ skipn t w). split; [exact Ew|]. split; [apply Ow; rewrite Ew; apply in_or_app; right; now left|].
      split; [exact Hc|]. right. left. exists u. auto.
  Qed.

  (** ** A last query after the rounds, answered by something else than a challenge *)
  Section Final.
    Context {F RF ZF : Type} (Zdec : forall x y : ZF, {x = y} + {x <> y}).
    Variables (valF : bytes -> option ZF) (okf : F -> Prop) (payF : nat -> V -> F -> bytes) (repF : list bytes -> RF).
    Variable payF_inj : forall n n' v v' f f', okf f -> okf f' -> payF n v f = payF n' v' f' -> v = v' /\ f = f'.
    Variable gamma : nat.
    Variable spreadF : forall x l, NoDup l -> (forall c, In c l -> In c Om /\ valF c = Some x) -> length l <= gamma.
    Variable hitF : list (Z * R * V) -> F -> RF -> ZF -> Prop.
    Variable mF : nat.
    Variable fewF : forall h f r xs, NoDup xs -> (forall x, In x xs -> hitF h f r x) -> length xs <= mF.

    (** [c] is a bad answer: its value is contained in a last query up to this one, or the query is a last query and [c] hits *)
    Definition foreseen (u : list bytes) (x : V) : Prop := exists t n f, t <= length u /\ okf f /\ query u t = payF n x f.
    Definition hits_last (u : list bytes) (x : ZF) : Prop :=
      distinct u /\ exists h s n f, path u h s /\ okf f /\ adv u = payF n (end_value h) f /\ hitF h f (repF u) x.
    Definition bad_last (u : list bytes) (c : bytes) : Prop :=
      bad u c \/ (In c Om /\ val c <> v0 /\ foreseen u (val c)) \/ (In c Om /\ exists x, valF c = Some x /\ hits_last u x).

    Lemma few_foreseen u xs : NoDup xs -> (forall x, In x xs -> foreseen u x) -> length xs <= S (length u).
    Proof using payF_inj.
      intros Hn H. rewrite <- (Nat.mul_1_l (S (length u))).
      apply (union_bound (fun t x => exists n f, okf f /\ query u t = payF n x f)); [exact Hn| |].
      - intros x Hx. destruct (H x Hx) as (t & n & f & Ht & Hf & Hq). exists t. split; [lia|eauto].
      - intros t l _ Hl Hx. destruct l as [|x [|y l]]; [cbn; lia|cbn; lia|]. exfalso. inversion Hl as [|? ? Hne _]; subst. apply Hne. left.
        destruct (Hx x (in_eq _ _)) as (n & f & Hf & Hq). destruct (Hx y) as (n' & f' & Hf' & Hq'); [right; now left|].
        rewrite Hq in Hq'. apply payF_inj in Hq' as [-> _]; auto.
    Qed.
    Lemma few_hits_last u xs : NoDup xs -> (forall x, In x xs -> hits_last u x) -> length xs <= mF.
    Proof using fewF pay_inj payF_inj.
      intros Hn H. destruct xs as [|x0 xs0] eqn:Ex; [cbn; lia|]. rewrite <- Ex in *.
      destruct (H x0) as (Hd & h & s & n & f & Hp & Hf & Hq & _); [rewrite Ex; apply in_eq|].
      apply (fewF h f (repF u)); [exact Hn|]. intros x Hx. destruct (H x Hx) as (_ & h' & s' & n' & f' & Hp' & Hf' & Hq' & Hh).
      rewrite Hq in Hq'. apply payF_inj in Hq' as [Eu <-]; auto. now rewrite (path_unique u h s Hd Hp h' s' Hp' Eu).
    Qed.
    Lemma few_bad_last u l : NoDup l -> (forall c, In c l -> bad_last u c) ->
      length l <= beta * (S (length u) + (length u + m)) + (beta * S (length u) + gamma * mF).
    Proof using few pay_inj spread Vdec fewF payF_inj spreadF Zdec.
      intros Hn H.
      apply (two_kinds (bad u) (fun c => (In c Om /\ val c <> v0 /\ foreseen u (val c)) \/ (In c Om /\ exists x, valF c = Some x /\ hits_last u x))); auto.
      { intros l' Hl' Hb. now apply few_bad_answers. }
      clear l Hn H. intros l Hn H.
      apply (two_kinds (fun c => In c Om /\ val c <> v0 /\ foreseen u (val c)) (fun c => In c Om /\ exists x, valF c = Some x /\ hits_last u x)); auto; clear l Hn H; intros l Hn H.
      - apply (fibre_bound Vdec val); [exact Hn| |].
        + intros x l' Hl' Hx. destruct l' as [|c0 l0] eqn:El; [cbn; lia|]. rewrite <- El in *. apply (spread x); [|exact Hl'|].
          * destruct (Hx c0) as [Hi <-]; [rewrite El; apply in_eq|]. apply (H c0 Hi).
          * intros c Hc. destruct (Hx c Hc) as [Hi Ev]. split; [apply (H c Hi)|exact Ev].
        + intros xs Hxs Hx. apply (few_foreseen u xs Hxs). intros x Hi. destruct (Hx x Hi) as [c [Hc <-]]. apply (H c Hc).
      - assert (Od : forall x y : option ZF, {x = y} + {x <> y}) by (decide equality).
        apply (fibre_bound Od valF); [exact Hn| |].
        + intros x l' Hl' Hx. destruct l' as [|c0 l0] eqn:El; [cbn; lia|]. rewrite <- El in *.
          destruct (Hx c0) as [Hi E0]; [rewrite El; apply in_eq|]. destruct (H c0 Hi) as [_ [x' [Ex _]]]. rewrite Ex in E0. subst x.
          apply (spreadF x'); [exact Hl'|]. intros c Hc. destruct (Hx c Hc) as [Hi' Ev]. split; [apply (H c Hi')|exact Ev].
        + intros xs Hxs Hx.
          assert (Hys : exists ys, xs = map Some ys /\ forall y, In y ys -> hits_last u y).
          { clear Hxs. induction xs as [|x xs IH]; [exists []; split; [reflexivity|intros ? []]|].
            destruct IH as [ys [-> Hys]]; [intros y Hy; apply Hx; now right|].
            destruct (Hx x (in_eq _ _)) as [c [Hc Ec]]. destruct (H c Hc) as [_ [y [Ey Hy]]]. exists (y :: ys). split; [cbn; congruence|].
            intros y' [<-|Hy']; auto. }
          destruct Hys as [ys [-> Hys]]. rewrite map_length. apply (few_hits_last u); [exact (NoDup_map_inv _ _ Hxs)|exact Hys].
    Qed.

    Definition bad_last_somewhere : Prop := exists pre c post, w = pre ++ c :: post /\ bad_last pre c.
    Lemma bad_somewhere_last : bad_somewhere -> bad_last_somewhere.
    Proof using. intros (p & c & q & E & H). exists p, c, q. split; [exact E|now left]. Qed.

    Lemma last_is_bad zs ts t n f x : linked v0 zs ts -> t < length w -> okf f ->
      query w t = payF n (last (map (fun t => val (answer w t)) ts) v0) f ->
      valF (answer w t) = Some x -> hitF (rounds zs ts) f (repF (firstn t w)) x -> bad_last_somewhere.
    Proof using Ow Vdec.
      intros H Ht Hf Hq Hx Hh. pose proof (linked_length _ _ _ H) as El.
      destruct (path_or_bad zs ts H) as [Hb|[s Hp]]; [now apply bad_somewhere_last|]. rewrite <- (end_value_rounds zs ts El) in Hq.
      destruct (Nat.le_gt_cases s t) as [Hst|Hst].
      - destruct (distinct_or_repeated (firstn t w)) as [Hd|(p & c & q & u & E & Hc & Hu & Ev)].
        + exists (firstn t w), (answer w t), (skipn (S t) w). split; [now apply at_time|]. right. right. split; [apply Ow, nth_In, Ht|].
          exists x. split; [exact Hx|]. split; [exact Hd|]. exists (rounds zs ts), s, n, f. split; [now apply path_cut|]. split; [exact Hf|].
          split; [exact Hq|exact Hh].
        + apply bad_somewhere_last.
          assert (Ew : w = p ++ c :: q ++ skipn t w) by (rewrite <- (firstn_skipn t w) at 1; rewrite E, <- app_assoc; reflexivity).
          exists p, c, (q ++ skipn t w). split; [exact Ew|]. split; [apply Ow; rewrite Ew; apply in_or_app; right; now left|].
          split; [exact Hc|]. right. left. exists u. auto.
      - destruct (path_end _ _ Hp) as [E|(u & E & Hu & Ee & Hv)]; [lia|].
        exists (firstn u w), (answer w u), (skipn (S u) w). split; [now apply at_time|]. right. left. split; [apply Ow, nth_In, Hu|]. split; [exact Hv|].
        exists t, n, f. rewrite firstn_length. split; [lia|]. split; [exact Hf|]. rewrite <- Ee, <- Hq. unfold Oracle.query. now rewrite firstn_le by lia.
    Qed.
  End Final.
End Game.

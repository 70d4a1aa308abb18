(** Provers whose final keys and openings are combinations of SRS elements (used for C97). *)
Require Import List Arith NArith Lia Bool Field.
Import ListNotations.
Require Import Verif.Outcome Verif.Algebra Verif.Rust Verif.InnerProducts Verif.Commitments
  Verif.Gipa Verif.Poly Verif.Tipa Verif.Spec Verif.ListFacts Verif.RustFacts Verif.InnerProductFacts Verif.CommitFacts Verif.GipaFacts
  Verif.PolyFacts Verif.KeyFacts Verif.TipaFacts Verif.RootFacts Verif.SpecialFacts Verif.Forking Verif.ForkingTwo
  Verif.PropsBase Verif.PropsGipa Verif.PropsTipa Verif.PropsVerify Verif.PropsForking.

(** ** Counting: many points for one sequence of challenges *)
Section Heavy.
  Context {K : field}.

  (** the points of the runs in [L] with the challenges [cs] *)
  Definition points_of (L : list (list K * K)) (cs : list K) : list K := map snd (filter (fun e => same cs (fst e)) L).
  (** the sequences of challenges with more than [d] points *)
  Definition heavy (L : list (list K * K)) (Ch : list K) (k d : nat) : list (list K) :=
    filter (fun cs => d <? length (points_of L cs)) (sequences Ch k).

  Lemma nodup_app {X} (l l' : list X) : NoDup l -> NoDup l' -> (forall x, In x l -> ~ In x l') -> NoDup (l ++ l').
  Proof.
    induction 1 as [|x l Hx Hn IH]; intros H' Hd; [exact H'|]. cbn [app]. constructor.
    - rewrite in_app_iff. intros [H|H]; [contradiction|]. now apply (Hd x (in_eq _ _)).
    - apply IH; [exact H'|]. intros y Hy. apply Hd. now right.
  Qed.
  Lemma sequences_nodup {C} (Ch : list C) k : NoDup Ch -> NoDup (sequences Ch k).
  Proof.
    intros H. induction k as [|k IH]; cbn [sequences]; [repeat constructor; intros []|].
    assert (Hs : forall l, NoDup l -> NoDup (flat_map (fun c => map (cons c) (sequences Ch k)) l)).
    { clear H. induction l as [|c l IHl]; intros Hn; cbn [flat_map]; [constructor|]. inversion Hn as [|? ? Hc Hn']; subst.
      apply nodup_app; [|auto|].
      - apply FinFun.Injective_map_NoDup; [|exact IH]. intros x y E. now injection E.
      - intros x Hx Hy. apply in_map_iff in Hx as [y [<- _]]. apply in_flat_map in Hy as [c' [Hc' Hy]].
        apply in_map_iff in Hy as [y' [E _]]. injection E as -> ->. contradiction. }
    apply Hs, H.
  Qed.

  Lemma points_of_in L cs z : In z (points_of L cs) <-> In (cs, z) L.
  Proof.
    unfold points_of. rewrite in_map_iff. split.
    - intros [[cs' z'] [<- H]]. apply filter_In in H as [H1 H2]. cbn [fst snd] in *. apply same_spec in H2 as ->. exact H1.
    - intros H. exists (cs, z). split; [reflexivity|]. apply filter_In. split; [exact H|]. now apply same_spec.
  Qed.
  Lemma points_of_nodup L cs : NoDup L -> NoDup (points_of L cs).
  Proof.
    intros H. unfold points_of. induction H as [|[cs' z] L Hx Hn IH]; cbn [filter map fst]; [constructor|].
    destruct (same cs cs') eqn:E; [|exact IH]. cbn [map snd]. constructor; [|exact IH]. intros Hi.
    apply (points_of_in L cs z) in Hi. apply same_spec in E as ->. contradiction.
  Qed.

  Lemma heavy_bound L Ch Zs k d : NoDup L ->
    (forall cs z, In (cs, z) L -> length cs = k /\ incl cs Ch /\ In z Zs) ->
    length L <= length (heavy L Ch k d) * length Zs + length Ch ^ k * d.
  Proof.
    intros HL Hi.
    transitivity (list_sum (map (fun cs => Nat.min (length Zs) (length (points_of L cs))) (sequences Ch k))).
    - transitivity (length (flat_map (fun cs => map (pair cs) (points_of L cs)) (sequences Ch k))).
      + apply NoDup_incl_length; [exact HL|]. intros [cs z] H. destruct (Hi _ _ H) as [H1 [H2 H3]].
        apply in_flat_map. exists cs. split; [now apply sequences_in|]. now apply in_map, points_of_in.
      + rewrite flat_map_length. apply Nat.eq_le_incl. f_equal. apply map_ext. intros cs. rewrite map_length.
        symmetry. apply Nat.min_r. apply NoDup_incl_length; [now apply points_of_nodup|].
        intros z Hz. apply points_of_in in Hz. now destruct (Hi _ _ Hz) as [_ [_ H]].
    - rewrite <- (sequences_length Ch k). unfold heavy. apply sum_split.
      + intros cs. apply Nat.le_min_l.
      + intros cs H. apply Nat.ltb_ge in H. lia.
  Qed.
End Heavy.

(** ** Combinations of SRS elements *)
Section Combinations.
  Context {P : pairing}.
  Notation K := (pK P).
  Add Field KfAlg : (f_theory (pK P)).

  (** coefficients of the powers and of the one further element (h^alpha in G2, g^beta in G1); coefficients beyond the last
      power are ignored *)
  Definition comb : Type := (list K * K)%type.
  Definition combination {G : module K} (powers : list G) (extra : G) (c : comb) : G :=
    big (length powers) (fun i => fat (fst c) i *m at_ powers i) +m snd c *m extra.
  Definition comb_g2 (s : srs P) (c : comb) : pG2 P := combination (h_beta_powers s) (srs_h_alpha s) c.
  Definition comb_g1 (s : srs P) (c : comb) : pG1 P := combination (g_alpha_powers s) (srs_g_beta s) c.

  Lemma combination_eval {G : module K} powers (extra g : G) (x y : K) (c : comb) N : length powers = N ->
    (forall i, i < N -> at_ powers i = fpow x i *m g) -> extra = y *m g ->
    combination powers extra c = (poly_at (resize N f0 (fst c)) x +f snd c *f y) *m g.
  Proof.
    intros HN Hp He. unfold combination. rewrite He, <- mscale_mul, mscale_add_l. f_equal. rewrite HN.
    unfold poly_at. rewrite resize_length.
    transitivity (big N (fun i => (fat (resize N f0 (fst c)) i *f fpow x i) *m g)).
    - apply big_ext. intros i Hi. rewrite Hp by exact Hi. rewrite <- mscale_mul. do 2 f_equal.
      unfold fat. symmetry. now apply resize_nth.
    - generalize (resize N f0 (fst c)). clear. intros l. induction N as [|N IH]; cbn [big fbig]; [now rewrite mscale_0_l|].
      now rewrite IH, mscale_add_l.
  Qed.

  (** ** Relations between the trapdoors *)
  Definition nonzero (l : list K) : bool := existsb (fun c => negb (feqb c f0)) l.
  Lemma nonzero_true l : nonzero l = true -> exists c, In c l /\ c <> f0.
  Proof.
    intros H. apply existsb_exists in H as [c [Hc Hn]]. exists c. split; [exact Hc|]. intros ->.
    rewrite (proj2 (feqb_spec K f0 f0)) in Hn by auto. discriminate.
  Qed.
  Lemma nonzero_false l : nonzero l = false -> forall c, In c l -> c = f0.
  Proof.
    intros H c Hc. destruct (f_eq_dec _ c f0) as [|Hn]; [assumption|]. exfalso.
    assert (nonzero l = true); [|congruence]. apply existsb_exists. exists c. split; [exact Hc|]. apply negb_true_iff.
    destruct (feqb c f0) eqn:Ef; [|reflexivity]. apply feqb_spec in Ef. contradiction.
  Qed.

  (** u(beta) + alpha v(beta), or u(alpha) + beta v(alpha) *)
  Inductive relation : Type :=
  | InBeta (u v : list K)
  | InAlpha (u v : list K).
  (** the polynomial is not zero, vanishes at the trapdoors, and has degree at most 2n - 1 in the one and 1 in the other *)
  Definition vanishes (n : nat) (alpha beta : K) (rel : relation) : Prop :=
    match rel with
    | InBeta u v => (exists c, In c (u ++ v) /\ c <> f0) /\ length u <= 2 * n /\ length v <= 2 /\ poly_at u beta +f alpha *f poly_at v beta = f0
    | InAlpha u v => (exists c, In c (u ++ v) /\ c <> f0) /\ length u <= 2 * n /\ length v <= 2 /\ poly_at u alpha +f beta *f poly_at v alpha = f0
    end.

  (** p(X) + e Y - y - (X - z) (q(X) + e' Y) for a key p, e opened by q, e' at z to y *)
  Definition side_check (n : nat) (p q : comb) (z y : K) : list K * list K :=
    (check_poly (resize (2 * n - 1) f0 (fst p)) (resize (2 * n - 1) f0 (fst q)) z y, check_poly [snd p] [snd q] z f0).

  Lemma poly_at_1 (e x : K) : poly_at [e] x = e.
  Proof. unfold poly_at. cbn [length fbig fat nth fpow]. unfold fat. cbn [nth]. ring. Qed.
  Lemma side_check_length n p q z y : 0 < n -> length (fst (side_check n p q z y)) <= 2 * n /\ length (snd (side_check n p q z y)) <= 2.
  Proof.
    intros Hn. unfold side_check, check_poly. cbn [fst snd]. rewrite !map_length, !seq_length, !resize_length. cbn [length Nat.max]. lia.
  Qed.
  Lemma side_check_root n (p q : comb) z w (x y : K) {G : module K} (g : G) : g <> m0 ->
    (poly_at (resize (2 * n - 1) f0 (fst p)) x +f snd p *f y) *m g -m w *m g
      = (x -f z) *m (poly_at (resize (2 * n - 1) f0 (fst q)) x +f snd q *f y) *m g ->
    poly_at (fst (side_check n p q z w)) x +f y *f poly_at (snd (side_check n p q z w)) x = f0.
  Proof.
    intros Hg H. unfold side_check. cbn [fst snd]. rewrite !check_poly_at, !poly_at_1. rewrite scale_sub, <- mscale_mul in H.
    set (a := poly_at _ x) in *. set (b := poly_at (resize _ _ (fst q)) x) in *.
    assert (H' : ((a +f snd p *f y -f w) -f (x -f z) *f (b +f snd q *f y)) *m g = m0).
    { rewrite <- scale_sub, H. apply msub_eq0. reflexivity. }
    apply mscale_integral in H' as [H'|H']; [|contradiction]. etransitivity; [|exact H']. ring.
  Qed.
  Lemma side_check_zero n (p q : comb) z w : nonzero (fst (side_check n p q z w) ++ snd (side_check n p q z w)) = false ->
    poly_at (resize (2 * n - 1) f0 (fst p)) z = w /\ snd p = f0.
  Proof.
    intros H. pose proof (nonzero_false _ H) as H0. unfold side_check in H0. cbn [fst snd] in H0. split.
    - apply fsub_eq0. transitivity (poly_at (check_poly (resize (2 * n - 1) f0 (fst p)) (resize (2 * n - 1) f0 (fst q)) z w) z).
      + rewrite check_poly_at. ring.
      + apply poly_at_zero. intros c Hc. apply H0, in_or_app. now left.
    - transitivity (poly_at (check_poly [snd p] [snd q] z f0) z); [rewrite check_poly_at, !poly_at_1; ring|].
      apply poly_at_zero. intros c Hc. apply H0, in_or_app. now right.
  Qed.

  (** a polynomial with 2n - 1 coefficients that agrees with the key polynomial at more than 2n - 2 points *)
  Lemma key_poly_unique (t : list K) r (p zs : list K) n : n = 2 ^ length t -> length p = 2 * n - 1 -> NoDup zs -> 2 * n - 2 < length zs ->
    (forall z, In z zs -> poly_at p z = key_poly t r z) -> forall x, poly_at p x = key_poly t r x.
  Proof.
    intros Hn Hp Hz Hl Ha x. destruct (C24_coefficients t r) as [l [_ [Hll [_ [_ [_ Hk]]]]]].
    rewrite Nat.pow_add_r, <- Hn in Hll. cbn [Nat.pow Nat.mul] in Hll.
    set (m := 2 * n - 1) in *. assert (Hlm : length l = m) by (unfold m; lia).
    set (d := map (fun i => fat p i -f fat l i) (seq 0 m)).
    assert (Hd : forall y, poly_at d y = poly_at p y -f poly_at l y).
    { intros y. unfold poly_at. rewrite Hp, Hlm. unfold d. rewrite map_length, seq_length.
      transitivity (fbig m (fun i => fat p i *f fpow y i +f fopp f1 *f (fat l i *f fpow y i))).
      - apply fbig_ext. intros i Hi. unfold fat at 1.
        rewrite (nth_indep _ f0 ((fun i => fat p i -f fat l i) 0)) by (rewrite map_length, seq_length; auto).
        rewrite (map_nth (fun i => fat p i -f fat l i)), seq_nth by auto. cbn [Nat.add]. ring.
      - rewrite fbig_add, fbig_scale. ring. }
    assert (H0 : forall c, In c d -> c = f0).
    { apply Forall_forall. apply (roots_zero (M := fmod K) zs); [exact Hz| |].
      - unfold d. rewrite map_length, seq_length. unfold m. lia.
      - intros z Hi. rewrite mev_ev, ev_poly_at, Hd, Ha, Hk by exact Hi. change (key_poly t r z -f key_poly t r z = f0). ring. }
    rewrite <- Hk. apply fsub_eq0. rewrite <- Hd. now apply poly_at_zero.
  Qed.

  (** the two sides: an opened key gives a relation; a key opened at more than 2n - 2 points without one is the key polynomial *)
  Section Sides.
    Variables (s : srs P) (alpha beta : K) (n : nat).
    Hypothesis Hs : srs_ok s alpha beta n.
    Lemma comb_g2_eval c : comb_g2 s c = (poly_at (resize (2 * n - 1) f0 (fst c)) beta +f snd c *f alpha) *m pr_h P.
    Proof using Hs. destruct Hs as [_ [H1 [_ [H2 [_ H3]]]]]. now apply combination_eval. Qed.
    Lemma comb_g1_eval c : comb_g1 s c = (poly_at (resize (2 * n - 1) f0 (fst c)) alpha +f snd c *f beta) *m pr_g P.
    Proof using Hs. destruct Hs as [H1 [_ [H2 [_ [H3 _]]]]]. now apply combination_eval. Qed.

    Lemma g2_relation p q z y : 0 < n -> pr_h P <> m0 -> comb_g2 s p -m y *m pr_h P = (beta -f z) *m comb_g2 s q ->
      nonzero (fst (side_check n p q z y) ++ snd (side_check n p q z y)) = true ->
      vanishes n alpha beta (InBeta (fst (side_check n p q z y)) (snd (side_check n p q z y))).
    Proof using Hs.
      intros Hn Hh H Hz. destruct (side_check_length n p q z y Hn) as [L1 L2]. split; [now apply nonzero_true|]. split; [exact L1|]. split; [exact L2|].
      rewrite !comb_g2_eval in H. exact (side_check_root n p q z y beta alpha _ Hh H).
    Qed.
    Lemma g1_relation p q z y : 0 < n -> pr_g P <> m0 -> comb_g1 s p -m y *m pr_g P = (alpha -f z) *m comb_g1 s q ->
      nonzero (fst (side_check n p q z y) ++ snd (side_check n p q z y)) = true ->
      vanishes n alpha beta (InAlpha (fst (side_check n p q z y)) (snd (side_check n p q z y))).
    Proof using Hs.
      intros Hn Hh H Hz. destruct (side_check_length n p q z y Hn) as [L1 L2]. split; [now apply nonzero_true|]. split; [exact L1|]. split; [exact L2|].
      rewrite !comb_g1_eval in H. exact (side_check_root n p q z y alpha beta _ Hh H).
    Qed.

    Lemma right_polynomial p (t : list K) r zs : n = 2 ^ length t -> NoDup zs -> 2 * n - 2 < length zs ->
      (forall z, In z zs -> exists q, nonzero (fst (side_check n p q z (key_poly t r z)) ++ snd (side_check n p q z (key_poly t r z))) = false) ->
      (forall x, poly_at (resize (2 * n - 1) f0 (fst p)) x = key_poly t r x) /\ snd p = f0.
    Proof using.
      intros Hn Hz Hl H. split.
      - apply (key_poly_unique t r _ zs n); auto; [apply resize_length|]. intros z Hi. destruct (H z Hi) as [q Hq].
        now apply side_check_zero in Hq.
      - destruct zs as [|z zs]; [cbn in Hl; lia|]. destruct (H z (in_eq _ _)) as [q Hq]. now apply side_check_zero in Hq.
    Qed.
    Lemma g2_right p (t : list K) r zs : n = 2 ^ length t -> NoDup zs -> 2 * n - 2 < length zs ->
      (forall z, In z zs -> exists q, nonzero (fst (side_check n p q z (key_poly t r z)) ++ snd (side_check n p q z (key_poly t r z))) = false) ->
      comb_g2 s p = key_poly t r beta *m pr_h P.
    Proof using Hs.
      intros Hn Hz Hl H. destruct (right_polynomial p t r zs Hn Hz Hl H) as [H1 H2]. rewrite comb_g2_eval, H1, H2. f_equal. ring.
    Qed.
    Lemma g1_right p (t : list K) r zs : n = 2 ^ length t -> NoDup zs -> 2 * n - 2 < length zs ->
      (forall z, In z zs -> exists q, nonzero (fst (side_check n p q z (key_poly t r z)) ++ snd (side_check n p q z (key_poly t r z))) = false) ->
      comb_g1 s p = key_poly t r alpha *m pr_g P.
    Proof using Hs.
      intros Hn Hz Hl H. destruct (right_polynomial p t r zs Hn Hz Hl H) as [H1 H2]. rewrite comb_g1_eval, H1, H2. f_equal. ring.
    Qed.
  End Sides.
End Combinations.
Arguments comb : clear implicits.
Arguments relation : clear implicits.

(** the first run from which something can be computed *)
Fixpoint first_some {A B} (f : A -> option B) (l : list A) : option B :=
  match l with [] => None | x :: l => match f x with Some y => Some y | None => first_some f l end end.
Lemma first_some_some {A B} (f : A -> option B) l y : first_some f l = Some y -> exists x, In x l /\ f x = Some y.
Proof.
  induction l as [|x l IH]; cbn [first_some]; [discriminate|]. destruct (f x) as [y'|] eqn:E.
  - intros H. injection H as ->. exists x. auto using in_eq.
  - intros H. destruct (IH H) as [x' [H1 H2]]. exists x'. auto using in_cons.
Qed.
Lemma first_some_none {A B} (f : A -> option B) l : first_some f l = None -> forall x, In x l -> f x = None.
Proof.
  induction l as [|x l IH]; cbn [first_some]; [contradiction|]. destruct (f x) as [y'|] eqn:E; [discriminate|].
  intros H x' [<-|Hx]; auto.
Qed.

(** ** Two arguments with a point each, after a first challenge *)
Section HeavyTwo.
  Context {K : field}.
  Notation run := (K * ((list K * K) * (list K * K)))%type.
  Variables (L : list run) (Qs Ch Zs : list K) (k d : nat).

  (** the second arguments of the runs with the first challenge [q] and the challenges [cs1] and point [z1] of the first argument *)
  Definition second_of (q : K) (cs1 : list K) (z1 : K) : list (list K * K) :=
    map (fun e => snd (snd e)) (filter (fun e => feqb q (fst e) && same cs1 (fst (fst (snd e))) && feqb z1 (snd (fst (snd e)))) L).
  Definition heavy_second q cs1 z1 : list (list K) := heavy (second_of q cs1 z1) Ch k d.
  (** the points of the first argument *)
  Definition first_points q cs1 : list K := filter (fun z1 => match second_of q cs1 z1 with [] => false | _ => true end) Zs.
  Fixpoint best {A} (w : A -> nat) (x : A) (l : list A) : A :=
    match l with [] => x | y :: l => if w x <? w y then best w y l else best w x l end.
  (** the point with the most second arguments *)
  Definition pick q cs1 : K := best (fun z1 => length (heavy_second q cs1 z1)) f0 Zs.
  Definition heavy_both : list (K * (list K * list K)) :=
    flat_map (fun q => flat_map (fun cs1 => if d <? length (first_points q cs1) then map (fun cs2 => (q, (cs1, cs2))) (heavy_second q cs1 (pick q cs1)) else [])
      (sequences Ch k)) Qs.

  Lemma best_spec {A} (w : A -> nat) l : forall x, w x <= w (best w x l) /\ forall y, In y l -> w y <= w (best w x l).
  Proof.
    induction l as [|y l IH]; intros x; cbn [best]; [split; [auto|intros ? []]|]. destruct (Nat.ltb_spec (w x) (w y)) as [H|H].
    - destruct (IH y) as [H1 H2]. split; [lia|]. intros y' [<-|Hy]; auto.
    - destruct (IH x) as [H1 H2]. split; [lia|]. intros y' [<-|Hy]; [lia|auto].
  Qed.

  Lemma second_of_in q cs1 z1 e : In e (second_of q cs1 z1) <-> In (q, ((cs1, z1), e)) L.
  Proof.
    unfold second_of. rewrite in_map_iff. split.
    - intros [[q' [[cs' z'] e']] [<- H]]. apply filter_In in H as [H1 H2]. cbn [fst snd] in *.
      apply andb_true_iff in H2 as [H2 H4]. apply andb_true_iff in H2 as [H2 H3].
      apply feqb_spec in H2 as ->. apply same_spec in H3 as ->. apply feqb_spec in H4 as ->. exact H1.
    - intros H. exists (q, ((cs1, z1), e)). split; [reflexivity|]. apply filter_In. split; [exact H|]. cbn [fst snd].
      rewrite !andb_true_iff, !feqb_spec. split; [split|]; [reflexivity|now apply same_spec|reflexivity].
  Qed.
  Lemma second_of_nodup q cs1 z1 : NoDup L -> NoDup (second_of q cs1 z1).
  Proof.
    intros H. pose proof (second_of_in q cs1 z1) as Hin. unfold second_of in *. clear Hin.
    induction H as [|[q' [[cs' z'] e']] L' Hx Hn IH]; cbn [filter map fst snd]; [constructor|].
    destruct (feqb q q' && same cs1 cs' && feqb z1 z') eqn:E; [|exact IH]. cbn [map snd]. constructor; [|exact IH]. intros Hi.
    apply in_map_iff in Hi as [[q2 [[cs2 z2] e2]] [He H]]. cbn [snd] in He. subst e2. apply filter_In in H as [H1 H2]. cbn [fst snd] in H2.
    rewrite !andb_true_iff, !feqb_spec, !same_spec in *. destruct E as [[-> ->] ->], H2 as [[-> ->] ->]. contradiction.
  Qed.

  Hypotheses (HL : NoDup L) (HQ : NoDup Qs) (HC : NoDup Ch) (HZ : NoDup Zs).
  Hypothesis Hruns : forall q cs1 z1 cs2 z2, In (q, ((cs1, z1), (cs2, z2))) L ->
    In q Qs /\ length cs1 = k /\ incl cs1 Ch /\ In z1 Zs /\ length cs2 = k /\ incl cs2 Ch /\ In z2 Zs.
  Notation N := (length Ch).
  Notation Z := (length Zs).

  Lemma second_total q cs1 z1 : length (second_of q cs1 z1) <= length (heavy_second q cs1 z1) * Z + N ^ k * d.
  Proof using HL Hruns.
    apply heavy_bound; [now apply second_of_nodup|]. intros cs2 z2 H. apply second_of_in in H. destruct (Hruns _ _ _ _ _ H) as [_ [_ [_ [_ H']]]]. exact H'.
  Qed.
  Lemma second_all q cs1 z1 : length (second_of q cs1 z1) <= N ^ k * Z.
  Proof using HL Hruns.
    rewrite <- (sequences_length Ch k), <- prod_length. apply NoDup_incl_length; [now apply second_of_nodup|].
    intros [cs2 z2] H. apply second_of_in in H. destruct (Hruns _ _ _ _ _ H) as [_ [_ [_ [_ [H1 [H2 H3]]]]]].
    apply in_prod; [now apply sequences_in|exact H3].
  Qed.

  Definition weight q cs1 : nat := if d <? length (first_points q cs1) then length (heavy_second q cs1 (pick q cs1)) else 0.
  Lemma sum_bound {X} (w : X -> nat) b l : (forall x, In x l -> w x <= b) -> list_sum (map w l) <= length l * b.
  Proof using.
    clear. induction l as [|x l IH]; intros H; [cbn; lia|]. cbn [map list_sum fold_right length].
    change (fold_right Nat.add 0 (map w l)) with (list_sum (map w l)). pose proof (H x (in_eq _ _)).
    assert (list_sum (map w l) <= length l * b) by (apply IH; intros y Hy; apply H; now right). lia.
  Qed.
  Lemma sum_points q cs1 : list_sum (map (fun z1 => length (second_of q cs1 z1)) Zs) <= weight q cs1 * (Z * Z) + N ^ k * d * Z.
  Proof using HL Hruns.
    unfold weight. destruct (Nat.ltb_spec d (length (first_points q cs1))) as [Hd|Hd].
    - etransitivity.
      + apply (sum_bound _ (length (heavy_second q cs1 (pick q cs1)) * Z + N ^ k * d)). intros z1 Hz.
        etransitivity; [apply second_total|]. apply Nat.add_le_mono_r, Nat.mul_le_mono_r.
        apply (proj2 (best_spec (fun z1 => length (heavy_second q cs1 z1)) Zs f0)), Hz.
      + generalize (length (heavy_second q cs1 (pick q cs1))) (N ^ k * d). intros x y. nia.
    - transitivity (length (first_points q cs1) * (N ^ k * Z) + Z * 0).
      + apply (sum_split (fun z1 => match second_of q cs1 z1 with [] => false | _ => true end)).
        * intros z1. apply second_all.
        * intros z1 H. destruct (second_of q cs1 z1); [apply le_n|discriminate].
      + rewrite Nat.mul_0_r, Nat.add_0_r, Nat.mul_0_l, Nat.add_0_l.
        etransitivity; [apply Nat.mul_le_mono_r, Hd|]. generalize (N ^ k). intros x. nia.
  Qed.

  Lemma heavy_both_length : length heavy_both = list_sum (map (fun q => list_sum (map (weight q) (sequences Ch k))) Qs).
  Proof using.
    clear. unfold heavy_both. rewrite flat_map_length. f_equal. apply map_ext. intros q. rewrite flat_map_length. f_equal. apply map_ext. intros cs1.
    unfold weight. destruct (d <? length (first_points q cs1)); [now rewrite map_length|reflexivity].
  Qed.

  Lemma sum_affine {X} (w w' : X -> nat) a b l : (forall x, w x <= w' x * a + b) -> list_sum (map w l) <= list_sum (map w' l) * a + length l * b.
  Proof using.
    clear. intros H. induction l as [|x l IH]; [cbn; lia|]. cbn [map list_sum fold_right length].
    change (fold_right Nat.add 0 (map w l)) with (list_sum (map w l)). change (fold_right Nat.add 0 (map w' l)) with (list_sum (map w' l)).
    specialize (H x). nia.
  Qed.

  (** the runs, by the number of pairs of sequences for which both arguments have more than [d] points *)
  Lemma heavy_both_bound : length L <= length heavy_both * (Z * Z) + length Qs * N ^ (k + k) * d * Z.
  Proof using HL Hruns.
    transitivity (list_sum (map (fun q => list_sum (map (fun cs1 => list_sum (map (fun z1 => length (second_of q cs1 z1)) Zs)) (sequences Ch k))) Qs)).
    - transitivity (length (flat_map (fun q => flat_map (fun cs1 => flat_map (fun z1 => map (fun e => (q, ((cs1, z1), e))) (second_of q cs1 z1)) Zs) (sequences Ch k)) Qs)).
      + apply NoDup_incl_length; [exact HL|]. intros [q [[cs1 z1] [cs2 z2]]] H. destruct (Hruns _ _ _ _ _ H) as [H1 [H2 [H3 [H4 _]]]].
        apply in_flat_map. exists q. split; [exact H1|]. apply in_flat_map. exists cs1. split; [now apply sequences_in|].
        apply in_flat_map. exists z1. split; [exact H4|]. apply in_map_iff. exists (cs2, z2). split; [reflexivity|]. now apply second_of_in.
      + apply Nat.eq_le_incl. rewrite flat_map_length. f_equal. apply map_ext. intros q. rewrite flat_map_length. f_equal. apply map_ext. intros cs1.
        rewrite flat_map_length. f_equal. apply map_ext. intros z1. now rewrite map_length.
    - rewrite heavy_both_length. etransitivity.
      + apply (sum_affine _ (fun q => list_sum (map (weight q) (sequences Ch k))) (Z * Z) (N ^ k * (N ^ k * d * Z))). intros q.
        rewrite <- (sequences_length Ch k) at 1. apply sum_affine. intros cs1. apply sum_points.
      + rewrite Nat.pow_add_r. apply Nat.eq_le_incl. f_equal. generalize (N ^ k). intros x. ring.
  Qed.

  Lemma heavy_both_in q cs1 cs2 : In (q, (cs1, cs2)) heavy_both ->
    In q Qs /\ length cs1 = k /\ incl cs1 Ch /\ length cs2 = k /\ incl cs2 Ch /\
    d < length (first_points q cs1) /\ d < length (points_of (second_of q cs1 (pick q cs1)) cs2).
  Proof using.
    clear. intros H. unfold heavy_both in H. apply in_flat_map in H as [q' [Hq H]]. apply in_flat_map in H as [cs1' [Hc1 H]].
    destruct (Nat.ltb_spec d (length (first_points q' cs1'))) as [Hd|]; [|contradiction].
    apply in_map_iff in H as [cs2' [E H]]. injection E as -> -> ->. unfold heavy_second, heavy in H. apply filter_In in H as [H1 H2].
    apply Nat.ltb_lt in H2. apply sequences_in in Hc1 as [H3 H4]. apply sequences_in in H1 as [H5 H6]. repeat (split; [assumption|]). exact H2.
  Qed.
  Lemma nodup_flat_map {X Y} (f : X -> list Y) l : NoDup l -> (forall x, In x l -> NoDup (f x)) ->
    (forall x x' y, In y (f x) -> In y (f x') -> x = x') -> NoDup (flat_map f l).
  Proof using.
    clear. induction 1 as [|x l Hx Hn IH]; intros Hf Hd; cbn [flat_map]; [constructor|]. apply nodup_app.
    - apply Hf. now left.
    - apply IH; [intros y Hy; apply Hf; now right|exact Hd].
    - intros y Hy Hy'. apply in_flat_map in Hy' as [x' [Hx' Hy']]. rewrite (Hd _ _ _ Hy Hy') in Hx. contradiction.
  Qed.
  Lemma heavy_both_nodup : NoDup heavy_both.
  Proof using HQ HC.
    unfold heavy_both. apply nodup_flat_map; [exact HQ| |].
    - intros q _. apply nodup_flat_map; [now apply sequences_nodup| |].
      + intros cs1 _. destruct (d <? length (first_points q cs1)); [|constructor].
        apply FinFun.Injective_map_NoDup; [intros x y E; now injection E|]. apply NoDup_filter, sequences_nodup, HC.
      + intros x x' y H1 H2. destruct (d <? length (first_points q x)); [|contradiction]. destruct (d <? length (first_points q x')); [|contradiction].
        apply in_map_iff in H1 as [a [<- _]]. apply in_map_iff in H2 as [b [E _]]. now injection E.
    - intros q q' y H1 H2. apply in_flat_map in H1 as [c1 [_ H1]]. apply in_flat_map in H2 as [c2 [_ H2]].
      destruct (d <? length (first_points q c1)); [|contradiction]. destruct (d <? length (first_points q' c2)); [|contradiction].
      apply in_map_iff in H1 as [a [<- _]]. apply in_map_iff in H2 as [b [E _]]. now injection E.
  Qed.
End HeavyTwo.

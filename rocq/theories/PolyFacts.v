(** Polynomials: evaluation, long division by X - z, powers. *)
Require Import List Arith Lia Bool Field.
Import ListNotations.
Require Import Verif.Outcome Verif.Algebra Verif.Rust Verif.Spec Verif.ListFacts Verif.RustFacts
  Verif.InnerProducts Verif.InnerProductFacts Verif.Poly Verif.Gipa Verif.Tipa Verif.Ssm.

Section PolyFacts.
  Context {K : field}.
  Add Field KfPoly : (f_theory K).
  Notation ev := (@poly_evaluate K).
  Implicit Types l r q a : list K.
  Implicit Types x z c : K.

  Lemma ev_cons c l x : ev (c :: l) x = c +f x *f ev l x.
  Proof. reflexivity. Qed.

  Lemma ev_app l r x : ev (l ++ r) x = ev l x +f fpow x (length l) *f ev r x.
  Proof.
    induction l; cbn [app length fpow].
    - change (ev [] x) with (f0 : K). ring.
    - rewrite !ev_cons, IHl. ring.
  Qed.

  Lemma ev_poly_at l x : ev l x = poly_at l x.
  Proof.
    unfold poly_at. induction l; [reflexivity|].
    rewrite ev_cons, IHl. cbn [length]. rewrite fbig_S_l, <- fbig_scale.
    f_equal; [unfold fat; cbn [nth fpow]; ring|].
    apply fbig_ext. intros. unfold fat. cbn [nth fpow]. ring.
  Qed.

  Lemma ev_repeat0 n x : ev (repeat f0 n) x = f0.
  Proof. induction n; [reflexivity|]. cbn [repeat]. rewrite ev_cons, IHn. ring. Qed.

  Lemma ev_strip l x : ev (strip l) x = ev l x.
  Proof.
    induction l; [reflexivity|]. cbn [strip].
    destruct (strip l) eqn:E.
    - destruct (feqb a f0) eqn:Ea.
      + apply feqb_spec in Ea. subst. rewrite ev_cons, <- IHl. change (ev [] x) with (f0 : K). ring.
      + rewrite !ev_cons, <- IHl. reflexivity.
    - rewrite !(ev_cons a), IHl. reflexivity.
  Qed.

  Lemma strip_length l : length (strip l) <= length l.
  Proof.
    induction l; cbn [strip]; auto. destruct (strip l); [destruct (feqb a f0)|]; cbn in *; lia.
  Qed.

  Definition stripped l : Prop := strip l = l.

  Lemma strip_stripped l : stripped (strip l).
  Proof.
    unfold stripped. induction l; auto. cbn [strip]. destruct (strip l) eqn:E.
    - destruct (feqb a f0) eqn:Ea; auto. cbn. now rewrite Ea.
    - cbn [strip] in *. rewrite IHl. reflexivity.
  Qed.

  Lemma stripped_last l : stripped l -> l <> [] -> exists c, last_opt l = Some c /\ c <> f0.
  Proof.
    unfold stripped. induction l as [|y l IH]; intros H Hne; [congruence|].
    cbn [strip] in H. destruct (strip l) as [|y' l'] eqn:E.
    - destruct (feqb y f0) eqn:Ey; [discriminate|]. injection H as <-.
      exists y. split; [reflexivity|]. now apply feqb_false.
    - injection H as <-. destruct (IH eq_refl ltac:(discriminate)) as [c [H1 H2]].
      exists c. split; auto.
  Qed.

  Lemma last_stripped l c : last_opt l = Some c -> c <> f0 -> stripped l.
  Proof.
    unfold stripped. induction l as [|y l IH]; intros H Hc; [reflexivity|].
    cbn [strip]. destruct l as [|y' l'].
    - cbn in *. injection H as ->. apply feqb_false in Hc. now rewrite Hc.
    - rewrite IH; auto.
  Qed.

  Lemma poly_is_zero_stripped l : stripped l -> (poly_is_zero l = true <-> l = []).
  Proof.
    intros Hs. split; [|intros ->; reflexivity]. intros H.
    destruct l as [|y l]; auto. exfalso.
    destruct (stripped_last _ Hs ltac:(discriminate)) as [c [H1 H2]].
    assert (Hin : In c (y :: l)).
    { clear -H1. revert y H1. induction l; intros y H1.
      - injection H1 as ->. now left.
      - right. apply IHl. exact H1. }
    unfold poly_is_zero in H. rewrite forallb_forall in H. apply H in Hin. apply feqb_spec in Hin. auto.
  Qed.

  Lemma poly_is_zero_strip l : poly_is_zero l = true <-> strip l = [].
  Proof.
    induction l; cbn; [tauto|]. rewrite andb_true_iff, IHl.
    destruct (strip l) eqn:E.
    - destruct (feqb a f0); split; try tauto; try discriminate. intros [H _]. discriminate.
    - split; [intros [_ H]|]; discriminate.
  Qed.

  Lemma poly_degree_stripped l : stripped l -> poly_degree l = Ok (length l - 1).
  Proof.
    intros Hs. unfold poly_degree. destruct (poly_is_zero l) eqn:E.
    - apply poly_is_zero_stripped in E; auto. subst. reflexivity.
    - assert (l <> []) as Hne by (intros ->; discriminate).
      destruct (stripped_last l Hs Hne) as [c [-> Hc]]. apply feqb_false in Hc. rewrite Hc. reflexivity.
  Qed.

  (** degree panics exactly on non-zero polynomials with trailing zero coefficients *)
  Lemma poly_degree_ok l d : poly_degree l = Ok d -> stripped l \/ poly_is_zero l = true /\ d = 0.
  Proof.
    unfold poly_degree. destruct (poly_is_zero l); [intros [= <-]; auto|].
    intros H. apply rbind_ok in H as [? [H _]]. apply rassert_ok in H. left.
    destruct (last_opt l) eqn:E; [|discriminate]. apply negb_true_iff, feqb_false in H.
    eapply last_stripped; eauto.
  Qed.

  Lemma strip_snoc0 l : strip (l ++ [f0]) = strip l.
  Proof.
    induction l; cbn [app strip].
    - now rewrite feqb_refl.
    - now rewrite IHl.
  Qed.

  (** ** list_set, sub_scaled_at *)
  Lemma list_set_length {A} i (y : A) (l : list A) : length (list_set i y l) = length l.
  Proof. revert i. induction l; destruct i; cbn; auto. Qed.

  Lemma list_set_nth_other {A} i j (y : A) (l : list A) d : i <> j -> nth j (list_set i y l) d = nth j l d.
  Proof.
    revert i j. induction l; destruct i, j; cbn; intros; auto; try lia.
  Qed.

  Lemma ev_list_set i y l x : i < length l ->
    ev (list_set i y l) x = ev l x +f (y -f nth i l f0) *f fpow x i.
  Proof.
    revert i. induction l; cbn [length]; intros i Hi; [lia|].
    destruct i; cbn [list_set nth fpow].
    - rewrite !ev_cons. ring.
    - rewrite !ev_cons, IHl by lia. ring.
  Qed.

  Fixpoint sub_go (q : K) (d r : list K) : list K :=
    match d, r with x :: d, y :: r => (y -f q *f x) :: sub_go q d r | _, r => r end.

  Lemma sub_scaled_at_0 (q : K) d r : sub_scaled_at 0 q d r = sub_go q d r.
  Proof.
    cbn. revert r. induction d; destruct r; cbn; auto. f_equal. apply IHd.
  Qed.

  Lemma ev_sub_go (q : K) d r x : length d <= length r -> ev (sub_go q d r) x = ev r x -f q *f ev d x.
  Proof.
    revert r. induction d; destruct r; cbn [length sub_go]; intros H; try lia.
    - cbn. ring.
    - cbn [poly_evaluate fold_right]. change (ev [] x) with (f0 : K). ring.
    - rewrite !ev_cons, IHd by lia. ring.
  Qed.

  Lemma ev_sub_scaled k (q : K) (d : list K) : forall r x, k + length d <= length r ->
    ev (sub_scaled_at k q d r) x = ev r x -f q *f fpow x k *f ev d x.
  Proof.
    induction k; intros r x H.
    - rewrite sub_scaled_at_0, ev_sub_go by auto. cbn. ring.
    - destruct r; cbn [length] in H; [lia|]. cbn [sub_scaled_at fpow].
      rewrite !ev_cons, IHk by lia. ring.
  Qed.

  (** subtracting q*(X - z)*X^k when the leading coefficient is q at degree k+1 *)
  Lemma sub_scaled_cancel k z c : forall l,
    length l = S k -> 
    sub_scaled_at k c [fopp z; f1] (l ++ [c]) = removelast l ++ [nth k l f0 +f c *f z; f0].
  Proof.
    induction k; intros l H.
    - destruct l as [|y [|]]; try discriminate. cbn. f_equal; [ring|f_equal; ring].
    - destruct l as [|y [|y' l]]; try discriminate.
      change (sub_scaled_at (S k) c [fopp z; f1] ((y :: y' :: l) ++ [c]))
        with (y :: sub_scaled_at k c [fopp z; f1] ((y' :: l) ++ [c])).
      rewrite IHk by (cbn in *; lia). reflexivity.
  Qed.

  (** the loop of the long division by X - z *)
  Lemma div_loop_linear z : forall fuel Q r,
    stripped r -> length r < fuel -> length r <= S (length Q) ->
    (forall i, i < length r - 1 -> nth i Q f0 = f0) ->
    exists Q' r', div_loop fuel f1 [fopp z; f1] Q r = Ok (Q', r') /\ length Q' = length Q /\
      length r' <= 1 /\ forall x, ev Q' x *f (x -f z) +f ev r' x = ev Q x *f (x -f z) +f ev r x.
  Proof.
    induction fuel; intros Q r Hs Hf HQ Hz; [lia|]. cbn [div_loop].
    destruct (poly_is_zero r) eqn:Ez.
    { apply poly_is_zero_stripped in Ez; auto. subst. exists Q, []. repeat split; cbn; auto. }
    rewrite (poly_degree_stripped r) by auto. cbn [rbind].
    assert (Hd : poly_degree [fopp z; f1] = Ok 1).
    { apply (poly_degree_stripped [fopp z; f1]). apply (last_stripped _ f1); [reflexivity|apply f1_neq_f0]. }
    rewrite Hd. cbn [rbind].
    assert (Hne : r <> []) by (intros ->; discriminate).
    destruct (Nat.ltb_spec (length r - 1) 1) as [Hlt|Hge].
    { exists Q, r. repeat split; auto. lia. }
    destruct (stripped_last r Hs Hne) as [lc [Hlc Hlcn]]. rewrite Hlc. cbn [runwrap rbind].
    destruct (exists_last Hne) as [r0 [lc' Hr]]. subst r.
    rewrite last_opt_app in Hlc. injection Hlc as ->.
    rewrite app_length in *. cbn [length] in *.
    replace (length r0 + 1 - 1 - 1) with (length r0 - 1) by lia.
    replace (lc *f f1) with lc by ring.
    set (k := length r0 - 1). assert (Hk : length r0 = S k) by (unfold k; lia).
    rewrite (sub_scaled_cancel k z lc r0 Hk).
    set (Q1 := list_set k lc Q).
    set (r1 := removelast r0 ++ [nth k r0 f0 +f lc *f z]).
    assert (Hr1 : strip (removelast r0 ++ [nth k r0 f0 +f lc *f z; f0]) = strip r1).
    { rewrite <- (strip_snoc0 r1). unfold r1. now rewrite <- app_assoc. }
    rewrite Hr1.
    assert (Hlr1 : length r1 = length r0).
    { unfold r1. rewrite app_length. cbn [length].
      destruct (exists_last (l := r0)) as [r00 [y ->]]; [intros ->; discriminate|].
      rewrite removelast_last, app_length. reflexivity. }
    pose proof (strip_length r1) as Hsl.
    destruct (IHfuel Q1 (strip r1)) as [Q' [r' [H1 [H2 [H3 H4]]]]].
    - apply strip_stripped.
    - lia.
    - unfold Q1. rewrite list_set_length. lia.
    - intros i Hi. unfold Q1. rewrite list_set_nth_other by lia. apply Hz. lia.
    - exists Q', r'. split; [exact H1|]. unfold Q1 in H2. rewrite list_set_length in H2.
      split; [exact H2|]. split; [exact H3|]. intros x. rewrite H4, ev_strip.
      unfold Q1. rewrite ev_list_set by lia. rewrite Hz by lia.
      destruct (exists_last (l := r0)) as [r00 [y Hr0]]; [intros ->; discriminate|].
      unfold r1. subst r0. rewrite removelast_last. rewrite app_length in Hk. cbn [length] in Hk.
      rewrite (app_nth2 r00 [y]) by lia. replace (k - length r00) with 0 by lia. cbn [nth].
      rewrite !ev_app, app_length. cbn [length]. replace (length r00 + 1) with (S k) by lia.
      replace (length r00) with k by lia. cbn [poly_evaluate fold_right fpow]. ring.
  Qed.

  Lemma from_coefficients_linear z : from_coefficients [fopp z; f1] = [fopp z; f1].
  Proof. apply (last_stripped _ f1); [reflexivity|apply f1_neq_f0]. Qed.

  Lemma poly_div_linear a z : stripped a ->
    exists q, poly_div a (from_coefficients [fopp z; f1]) = Ok q /\ length q <= length a - 1 /\
      forall x, ev a x = ev q x *f (x -f z) +f ev a z.
  Proof.
    intros Hs. rewrite from_coefficients_linear. unfold poly_div.
    destruct (poly_is_zero a) eqn:Ez.
    { apply poly_is_zero_stripped in Ez; auto. subst. exists []. repeat split; cbn; auto. intros. ring. }
    assert (Hzl : poly_is_zero [fopp z; f1] = false).
    { destruct (poly_is_zero [fopp z; f1]) eqn:E; auto. apply poly_is_zero_strip in E.
      fold (from_coefficients [fopp z; f1]) in E. rewrite from_coefficients_linear in E. discriminate. }
    rewrite Hzl. rewrite (poly_degree_stripped a) by auto. cbn [rbind].
    rewrite (poly_degree_stripped [fopp z; f1]) by (rewrite <- (from_coefficients_linear z); apply strip_stripped).
    cbn [rbind length]. change (2 - 1) with 1.
    assert (Hne : a <> []) by (intros ->; discriminate).
    destruct (Nat.ltb_spec (length a - 1) 1) as [Hlt|Hge].
    { destruct a as [|y [|y' a]]; [congruence| |cbn in Hlt; lia].
      exists []. repeat split; cbn; auto. intros. ring. }
    cbn [last_opt runwrap rbind]. rewrite finverse_neq by apply f1_neq_f0. cbn [runwrap rbind].
    rewrite finv_1.
    destruct (div_loop_linear z (S (length a)) (repeat f0 (length a - 1 - 1 + 1)) a) as [Q [r [H1 [H2 [H3 H4]]]]];
      auto.
    - rewrite repeat_length. lia.
    - intros i _. apply nth_repeat.
    - rewrite H1. cbn [rbind]. exists (from_coefficients Q). rewrite repeat_length in H2. split; [reflexivity|].
      split. { unfold from_coefficients. pose proof (strip_length Q). lia. }
      intros x. unfold from_coefficients. rewrite ev_strip.
      pose proof (H4 x) as Hx. pose proof (H4 z) as Hzz. rewrite ev_repeat0 in Hx, Hzz.
      assert (Hr : forall y, ev r y = ev r z).
      { intros y. destruct r as [|c [|]]; cbn; auto; [ring|cbn in H3; lia]. }
      replace (ev a x) with (f0 *f (x -f z) +f ev a x) by ring. rewrite <- Hx, (Hr x).
      replace (ev a z) with (f0 *f (z -f z) +f ev a z) by ring. rewrite <- Hzz. ring.
  Qed.

  Lemma ev_zipw_sub l r x : length l = length r ->
    ev (zipw fsub l r) x = ev l x -f ev r x.
  Proof.
    revert r. induction l; destruct r; cbn [zipw length]; intros H; try discriminate.
    - cbn. ring.
    - rewrite !ev_cons, IHl by lia. ring.
  Qed.

  Lemma ev_resize n l x : length l <= n -> ev (resize n f0 l) x = ev l x.
  Proof.
    intros H. unfold resize. rewrite firstn_all2 by auto. rewrite ev_app, ev_repeat0. ring.
  Qed.

  Lemma ev_poly_sub l r x : ev (poly_sub l r) x = ev l x -f ev r x.
  Proof.
    unfold poly_sub. rewrite ev_strip, ev_zipw_sub by now rewrite !resize_length.
    rewrite !ev_resize by lia. reflexivity.
  Qed.

  Lemma poly_sub_stripped l r : stripped (poly_sub l r).
  Proof. apply strip_stripped. Qed.

  Lemma poly_sub_length l r : length (poly_sub l r) <= Nat.max (length l) (length r).
  Proof.
    unfold poly_sub. etransitivity; [apply strip_length|].
    rewrite zipw_length, !resize_length. lia.
  Qed.

  (** ** powers *)
  Lemma push_powers_length n (p s : K) : length (push_powers n p s : list K) = n.
  Proof. revert p. induction n; cbn; intros; auto. Qed.

  Lemma push_powers_spec n (p s : K) : (push_powers n p s : list K) = map (fun i => p *f fpow s i) (seq 0 n).
  Proof.
    revert p. induction n; intros p; cbn [push_powers seq map]; auto. f_equal.
    - cbn. ring.
    - rewrite IHn, <- seq_shift, map_map. apply map_ext. intros. cbn. ring.
  Qed.

  Lemma push_powers_nth n (s : K) i : i < n -> fat (push_powers n f1 s) i = fpow s i.
  Proof.
    intros H. rewrite push_powers_spec. unfold fat.
    rewrite (nth_indep _ f0 (f1 *f fpow s 0)) by (rewrite map_length, seq_length; auto).
    rewrite (map_nth (fun i => f1 *f fpow s i)), seq_nth by auto. cbn. ring.
  Qed.

  Lemma push_powers_map n (s : K) : (push_powers n f1 s : list K) = map (fpow s) (seq 0 n).
  Proof. rewrite push_powers_spec. apply map_ext. intros. ring. Qed.

  Lemma dot_powers {G : module K} (g : G) (s : K) : forall (c : list K) (p : K),
    dot smul (map (fun x => x *m g) (push_powers (length c) p s)) (c : list (fmod K))
    = (p *f ev c s) *m g.
  Proof.
    induction c as [|y c IH]; intros p; cbn [length push_powers map].
    - change (ev [] s) with (f0 : K).
      replace (p *f f0) with (f0 : K) by ring. rewrite mscale_0_l. reflexivity.
    - refine (eq_trans (dot_cons smul (p *m g) _ (y : fmod K) _) _).
      rewrite IH, ev_cons. unfold smul.
      rewrite <- mscale_mul, <- mscale_add_l. f_equal. ring.
  Qed.

  Lemma structured_generators_ok {G : module K} n (g : G) (s : K) : 0 < n ->
    structured_generators_scalar_power n g s = Ok (map (fun i => fpow s i *m g) (seq 0 n)).
  Proof.
    intros H. unfold structured_generators_scalar_power.
    destruct (Nat.ltb_spec 0 n); [|lia]. cbn [rassert rbind].
    rewrite push_powers_map, map_map. reflexivity.
  Qed.

  Lemma scalar_power_loop_spec (s : K) m : forall j,
    scalar_power_loop (seq (S j) m) s (map (fpow s) (seq 0 (S j)))
      = Ok (map (fpow s) (seq 0 (S j + m))).
  Proof.
    induction m; intros j.
    - rewrite Nat.add_0_r. reflexivity.
    - change (seq (S j) (S m)) with (S j :: seq (S (S j)) m). cbn [scalar_power_loop]. replace (S j - 1) with j by lia.
      rewrite (index_ok _ _ (fpow s 0)) by (rewrite map_length, seq_length; lia).
      cbn [rbind]. rewrite map_nth, seq_nth by lia.
      replace (map (fpow s) (seq 0 (S j)) ++ [fpow s (0 + j) *f s])
        with (map (fpow s) (seq 0 (S (S j)))).
      + rewrite IHm. do 2 f_equal. f_equal. lia.
      + rewrite (seq_S (S j)), map_app. cbn [map plus Nat.add fpow]. do 2 f_equal. ring.
  Qed.

  Lemma structured_scalar_power_spec n (s : K) :
    structured_scalar_power n s = Ok (map (fpow s) (seq 0 (Nat.max n 1))).
  Proof.
    unfold structured_scalar_power. change [f1] with (map (fpow s) (seq 0 1)).
    rewrite scalar_power_loop_spec. do 3 f_equal. lia.
  Qed.

  (** resized coefficient vectors against powers *)
  Lemma msm_powers {G : module K} n (g : G) (s : K) q : length q <= n ->
    msm (map (fun i => fpow s i *m g) (seq 0 n)) (resize n f0 q) = Some (ev q s *m g).
  Proof.
    intros H. rewrite msm_dot by (now rewrite map_length, seq_length, resize_length).
    f_equal. rewrite <- (map_map (fpow s) (fun x => x *m g)), <- push_powers_map.
    rewrite <- (resize_length n f0 q) at 1.
    rewrite dot_powers, ev_resize by auto. f_equal. ring.
  Qed.
End PolyFacts.

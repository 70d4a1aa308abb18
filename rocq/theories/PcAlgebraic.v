(** Vectors of coefficients, polynomials in two trapdoors and provers of openings whose elements of the groups are
    combinations of SRS elements (used for C98). *)
Require Import List Arith NArith Lia Bool Field.
Import ListNotations.
Require Import Verif.Outcome Verif.Algebra Verif.Rust Verif.InnerProducts Verif.Commitments
  Verif.Gipa Verif.Poly Verif.Tipa Verif.Ssm Verif.Spec Verif.ListFacts Verif.RustFacts Verif.InnerProductFacts Verif.CommitFacts Verif.GipaFacts
  Verif.PolyFacts Verif.KeyFacts Verif.TipaFacts Verif.RootFacts Verif.SpecialFacts Verif.SsmSpecial Verif.Forking Verif.ForkingTwo
  Verif.PropsBase Verif.PropsGipa Verif.PropsTipa Verif.PropsVerify Verif.PropsForking Verif.Algebraic.

(** ** Vectors of a fixed length *)
Section Vectors.
  Context {K : field}.
  Add Field KfVec : (f_theory K).

  Fixpoint vmod (m : nat) : module K := match m with O => unitmod K | S m => prodmod (fmod K) (vmod m) end.
  Fixpoint vlist (m : nat) : vmod m -> list K :=
    match m with O => fun _ => [] | S m => fun v : fmod K * vmod m => (fst v : K) :: vlist m (snd v) end.
  Fixpoint vof (m : nat) (l : list K) : vmod m :=
    match m with O => tt | S m => ((hd f0 l : K), vof m (tl l)) end.

  Lemma vlist_length m : forall v, length (vlist m v) = m.
  Proof. induction m as [|m IH]; intros v; [reflexivity|]. cbn [vlist length]. now rewrite IH. Qed.
  Lemma vlist_vof m : forall l, vlist m (vof m l) = resize m f0 l.
  Proof.
    induction m as [|m IH]; intros l; [unfold resize; rewrite Nat.sub_0_l; reflexivity|]. cbn [vlist vof fst snd]. rewrite IH. destruct l as [|x l].
    - cbn [hd tl]. unfold resize. cbn [firstn length]. rewrite !Nat.sub_0_r, firstn_nil. reflexivity.
    - cbn [hd tl]. unfold resize. reflexivity.
  Qed.
  Lemma vof_vlist m : forall v, vof m (vlist m v) = v.
  Proof. induction m as [|m IH]; intros v; [now destruct v|destruct v as [x v]]. cbn [vlist vof fst snd hd tl]. now rewrite IH. Qed.
  Lemma vlist_nonzero m : forall v, v <> m0 -> exists c, In c (vlist m v) /\ c <> f0.
  Proof.
    induction m as [|m IH]; intros v Hv; [destruct v; now contradiction Hv|]. destruct v as [x v]. cbn [vlist fst snd].
    destruct (f_eq_dec _ x f0) as [->|Hx]; [|exists x; split; [now left|exact Hx]].
    destruct (IH v) as [c [H1 H2]]; [intros ->; now apply Hv|]. exists c. split; [now right|exact H2].
  Qed.

  Lemma poly_at_cons (c : K) l x : poly_at (c :: l) x = c +f x *f poly_at l x.
  Proof.
    unfold poly_at. cbn [length]. rewrite fbig_S_l. unfold fat at 1. cbn [nth fpow].
    rewrite <- fbig_scale. rewrite (fbig_ext _ (fun i => fat (c :: l) (S i) *f fpow x (S i)) (fun i => x *f (fat l i *f fpow x i))); [ring|].
    intros i _. unfold fat. cbn [nth fpow]. ring.
  Qed.
  Lemma poly_at_nil (x : K) : poly_at [] x = f0.
  Proof. reflexivity. Qed.

  (** evaluation is linear *)
  Definition veval m (x : K) (v : vmod m) : K := poly_at (vlist m v) x.
  Lemma veval_add m x : forall v w, veval m x (v +m w) = veval m x v +f veval m x w.
  Proof.
    unfold veval. induction m as [|m IH]; intros v w; [cbn [vlist]; rewrite poly_at_nil; ring|]. destruct v as [a v], w as [b w].
    match goal with |- poly_at ?l x = _ => change l with ((a +f b : K) :: vlist m (v +m w)) end. cbn [vlist fst snd]. rewrite !poly_at_cons, IH. ring.
  Qed.
  Lemma veval_scale m x c : forall v, veval m x (c *m v) = c *f veval m x v.
  Proof.
    unfold veval. induction m as [|m IH]; intros v; [cbn [vlist]; rewrite poly_at_nil; ring|]. destruct v as [a v].
    match goal with |- poly_at ?l x = _ => change l with ((c *f a : K) :: vlist m (c *m v)) end. cbn [vlist fst snd]. rewrite !poly_at_cons, IH. ring.
  Qed.

  (** A row: the coefficients of the powers of one trapdoor, and that of the other trapdoor. *)
  Definition row m : module K := prodmod (vmod m) (fmod K).
  Definition row_of m (c : list K * K) : row m := (vof m (fst c), (snd c : fmod K)).
  Definition row_list m (r : row m) : list K * K := (vlist m (fst r), (snd r : K)).
  Definition row_at m (x y : K) (r : row m) : K := veval m x (fst r) +f (snd r : K) *f y.
  Lemma row_at_add m x y r s : row_at m x y (r +m s) = row_at m x y r +f row_at m x y s.
  Proof.
    destruct r as [v b], s as [w c]. unfold row_at. change (veval m x (v +m w) +f ((b : K) +f c) *f y = veval m x v +f (b : K) *f y +f (veval m x w +f (c : K) *f y)).
    rewrite veval_add. ring.
  Qed.
  Lemma row_at_scale m x y c r : row_at m x y (c *m r) = c *f row_at m x y r.
  Proof. destruct r as [v b]. unfold row_at. change (veval m x (c *m v) +f (c *f (b : K)) *f y = c *f (veval m x v +f (b : K) *f y)). rewrite veval_scale. ring. Qed.
  Lemma row_at_0 m x y : row_at m x y m0 = f0.
  Proof.
    assert (H : row_at m x y (f0 *m m0) = f0 *f row_at m x y m0) by apply row_at_scale. rewrite mscale_0_l in H. rewrite H. ring.
  Qed.
  Lemma row_list_nonzero m (r : row m) : r <> m0 -> exists c, In c (fst (row_list m r) ++ [snd (row_list m r)]) /\ c <> f0.
  Proof.
    destruct r as [v b]. intros H. unfold row_list. cbn [fst snd]. destruct (f_eq_dec _ (b : K) f0) as [E|E].
    - destruct (vlist_nonzero m v) as [c [H1 H2]].
      + intros ->. apply H. change (b : K) with (b : mcar (fmod K)) in E. rewrite E. reflexivity.
      + exists c. split; [apply in_or_app; now left|exact H2].
    - exists b. split; [apply in_or_app; right; now left|exact E].
  Qed.

  Lemma row_of_list m (r : row m) : row_of m (row_list m r) = r.
  Proof. destruct r as [v b]. unfold row_of, row_list. cbn [fst snd]. now rewrite vof_vlist. Qed.

  (** rows added up with the powers of a point *)
  Lemma row_at_mev m x y (a : list (row m)) z : row_at m x y (mev a z) = fbig (length a) (fun i => row_at m x y (nth i a m0) *f fpow z i).
  Proof.
    induction a as [|r a IH]; [apply row_at_0|]. cbn [mev length]. rewrite row_at_add, row_at_scale, IH, fbig_S_l. cbn [nth fpow].
    rewrite <- fbig_scale.
    rewrite (fbig_ext _ (fun i => row_at m x y (nth i a m0) *f (z *f fpow z i)) (fun i => z *f (row_at m x y (nth i a m0) *f fpow z i))); [ring|].
    intros i _. ring.
  Qed.
  Lemma mev_fst m (a : list (row m)) z x : veval m x (fst (mev a z)) = fbig (length a) (fun i => veval m x (fst (nth i a m0)) *f fpow z i).
  Proof.
    induction a as [|r a IH].
    { change (veval m x (@m0 _ (vmod m)) = f0). pose proof (row_at_0 m x f0) as H. unfold row_at in H.
      change (veval m x (@m0 _ (vmod m)) +f (@f0 K) *f f0 = f0) in H. rewrite <- H. ring. }
    cbn [mev length]. change (fst (r +m z *m mev a z)) with (fst r +m z *m fst (mev a z)). rewrite veval_add, veval_scale, IH, fbig_S_l. cbn [nth fpow].
    rewrite <- fbig_scale.
    rewrite (fbig_ext _ (fun i => veval m x (fst (nth i a m0)) *f (z *f fpow z i)) (fun i => z *f (veval m x (fst (nth i a m0)) *f fpow z i))); [ring|].
    intros i _. ring.
  Qed.
  Lemma mev_snd m (a : list (row m)) z : (snd (mev a z) : K) = fbig (length a) (fun i => (snd (nth i a m0) : K) *f fpow z i).
  Proof.
    induction a as [|r a IH]; [reflexivity|].
    cbn [mev length]. change (snd (r +m z *m mev a z)) with ((snd r : K) +f z *f (snd (mev a z) : K)). rewrite IH, fbig_S_l. cbn [nth fpow].
    rewrite <- fbig_scale.
    rewrite (fbig_ext _ (fun i => (snd (nth i a m0) : K) *f (z *f fpow z i)) (fun i => z *f ((snd (nth i a m0) : K) *f fpow z i))); [ring|].
    intros i _. ring.
  Qed.
End Vectors.

(** ** Polynomials in two variables: a list, by the powers of the second, of polynomials in the first *)
Section Poly2.
  Context {K : field}.
  Add Field KfP2 : (f_theory K).
  Definition poly2_at (p : list (list K)) (x y : K) : K := fbig (length p) (fun j => poly_at (nth j p []) x *f fpow y j).
  (** not zero, fewer than [dx] powers of the first and [dy] of the second variable, and zero at [x], [y] *)
  Definition vanishes_at (dx dy : nat) (x y : K) (p : list (list K)) : Prop :=
    (exists r c, In r p /\ In c r /\ c <> f0) /\ length p <= dy /\ (forall r, In r p -> length r <= dx) /\ poly2_at p x y = f0.

  Lemma poly2_at_cons r p (x y : K) : poly2_at (r :: p) x y = poly_at r x +f y *f poly2_at p x y.
  Proof.
    unfold poly2_at. cbn [length]. rewrite fbig_S_l. cbn [nth fpow]. rewrite <- fbig_scale.
    rewrite (fbig_ext _ (fun i => poly_at (nth i p []) x *f (y *f fpow y i)) (fun i => y *f (poly_at (nth i p []) x *f fpow y i))); [ring|].
    intros i _. ring.
  Qed.

  (** u(Y) + X v(Y) *)
  Lemma poly_at_pad (l : list K) x n : length l <= n -> poly_at l x = fbig n (fun i => fat l i *f fpow x i).
  Proof.
    intros H. unfold poly_at. replace n with (length l + (n - length l)) by lia. rewrite fbig_split.
    rewrite (fbig_ext (n - length l) _ (fun _ => f0)); [rewrite fbig_0; ring|]. intros i _. unfold fat at 1. rewrite nth_overflow by lia. ring.
  Qed.
  Definition in_second (N : nat) (u v : list K) : list (list K) := map (fun j => [fat u j; fat v j]) (seq 0 N).
  Lemma in_second_at N u v x y : length u <= N -> length v <= N ->
    poly2_at (in_second N u v) x y = poly_at u y +f x *f poly_at v y.
  Proof.
    intros Hu Hv. unfold poly2_at, in_second. rewrite map_length, seq_length.
    rewrite (poly_at_pad u y N Hu), (poly_at_pad v y N Hv), <- fbig_scale, <- fbig_add. apply fbig_ext. intros j Hj.
    rewrite (nth_indep _ [] [fat u 0; fat v 0]) by (now rewrite map_length, seq_length).
    rewrite (map_nth (fun j => [fat u j; fat v j])), seq_nth by exact Hj. cbn [Nat.add]. rewrite !poly_at_cons, poly_at_nil. ring.
  Qed.
  Lemma in_second_nonzero N u v : length u <= N -> length v <= N -> (exists c, In c (u ++ v) /\ c <> f0) ->
    exists r c, In r (in_second N u v) /\ In c r /\ c <> f0.
  Proof.
    intros Hu Hv [c [Hc Hn]]. apply in_app_or in Hc as [Hc|Hc]; apply (In_nth _ _ f0) in Hc as [j [Hj Hc]];
      exists [fat u j; fat v j], c; (split; [apply in_map_iff; exists j; split; [reflexivity|apply in_seq; lia]|split; [|exact Hn]]).
    - left. exact Hc.
    - right. left. exact Hc.
  Qed.

  (** the rows, for the even powers of the second variable, with the next odd power *)
  Fixpoint rows_poly (w : list (list K * K)) : list (list K) :=
    match w with [] => [] | r :: w => fst r :: [snd r] :: rows_poly w end.
  Lemma rows_poly_length w : length (rows_poly w) = 2 * length w.
  Proof. induction w as [|r w IH]; [reflexivity|]. cbn [rows_poly length]. lia. Qed.
  Lemma rows_poly_at m (w : list (row m)) (x y : K) :
    poly2_at (rows_poly (map (row_list m) w)) x y = fbig (length w) (fun i => row_at m x y (nth i w m0) *f fpow (y *f y) i).
  Proof.
    induction w as [|r w IH]; [reflexivity|]. cbn [map rows_poly length]. rewrite !poly2_at_cons, IH, fbig_S_l. cbn [nth fpow].
    rewrite poly_at_cons, poly_at_nil. unfold row_list at 1 2. cbn [fst snd].
    rewrite (fbig_ext _ (fun i => row_at m x y (nth i w m0) *f (y *f y *f fpow (y *f y) i)) (fun i => y *f y *f (row_at m x y (nth i w m0) *f fpow (y *f y) i))).
    2:{ intros i _. ring. }
    rewrite fbig_scale. unfold row_at at 2. change (veval m x (fst r)) with (poly_at (vlist m (fst r)) x). ring.
  Qed.
  Lemma rows_poly_in (w : list (list K * K)) l : In l (rows_poly w) <-> exists r, In r w /\ (l = fst r \/ l = [snd r]).
  Proof.
    induction w as [|r w IH]; cbn [rows_poly In]; [split; [contradiction|intros [? [[] _]]]|]. rewrite IH. split.
    - intros [<-|[<-|[r' [H1 H2]]]]; [exists r; auto|exists r; auto|exists r'; auto].
    - intros [r' [[<-|H1] [-> | ->]]]; [auto|auto|right; right; exists r'; auto|right; right; exists r'; auto].
  Qed.
  Lemma rows_poly_vanishes m n (w : list (row m)) (x y : K) : length w = n -> (exists r, In r w /\ r <> m0) ->
    fbig n (fun i => row_at m x y (nth i w m0) *f fpow (y *f y) i) = f0 ->
    vanishes_at (m + 1) (2 * n) x y (rows_poly (map (row_list m) w)).
  Proof.
    intros Hl [r [Hr Hn]] H0. split; [|split; [|split]].
    - destruct (row_list_nonzero m r Hn) as [c [Hc Hcn]]. apply in_app_or in Hc. destruct Hc as [Hc|[Hc|[]]].
      + exists (fst (row_list m r)), c. split; [|auto]. apply rows_poly_in. exists (row_list m r). split; [now apply in_map|now left].
      + exists [snd (row_list m r)], c. split; [|split; [left; exact Hc|exact Hcn]]. apply rows_poly_in. exists (row_list m r). split; [now apply in_map|now right].
    - rewrite rows_poly_length, map_length. lia.
    - intros l Hl'. apply rows_poly_in in Hl' as [r' [Hr' [->| ->]]]; [|cbn [length]; lia].
      apply in_map_iff in Hr' as [r'' [<- _]]. unfold row_list. cbn [fst]. rewrite vlist_length. lia.
    - rewrite rows_poly_at, Hl. exact H0.
  Qed.

End Poly2.

Section RowCheck.
  Context {P : pairing}.
  Notation K := (pK P).
  Add Field KfRc : (f_theory (pK P)).
  (** p - e - (X - y) q for rows p, q *)
  Definition row_check m (p q : row m) (y e : K) : list (list K) :=
    [check_poly (vlist m (fst p)) (vlist m (fst q)) y e; check_poly [(snd p : K)] [(snd q : K)] y f0].
  Lemma row_check_at m p q y e (a b : K) : poly2_at (row_check m p q y e) a b = (row_at m a b p -f e) -f (a -f y) *f row_at m a b q.
  Proof.
    unfold row_check. rewrite !poly2_at_cons, !check_poly_at. unfold poly2_at. cbn [length fbig]. rewrite !poly_at_cons, !poly_at_nil.
    unfold row_at, veval. ring.
  Qed.
  Lemma check_linear (u v y : K) : (forall c, In c (check_poly [u] [v] y f0) -> c = f0) -> u = f0.
  Proof.
    intros H. transitivity (poly_at (check_poly [u] [v] y f0) y); [rewrite check_poly_at, !poly_at_1; ring|]. now apply poly_at_zero.
  Qed.
End RowCheck.

(** ** A polynomial that is not zero vanishes at few pairs *)
Section Rare.
  Context {K : field}.
  Add Field KfRare : (f_theory K).
  Lemma roots_few (xs l : list K) d : NoDup xs -> (exists c, In c l /\ c <> f0) -> length l <= d ->
    (forall x, In x xs -> poly_at l x = f0) -> length xs <= d - 1.
  Proof.
    intros Hx Hc Hd H. assert (length xs <= length l - 1); [|lia]. apply (roots_bound (M := fmod K) xs l Hx Hc).
    intros x Hi. rewrite mev_ev, ev_poly_at. now apply H.
  Qed.
  Lemma poly2_at_first (p : list (list K)) x y : poly2_at p x y = poly_at (map (fun r => poly_at r x) p) y.
  Proof.
    induction p as [|r p IH]; [reflexivity|]. cbn [map]. now rewrite poly2_at_cons, poly_at_cons, IH.
  Qed.

  Lemma vanishes_rarely dx dy (p : list (list K)) (As Bs : list K) (L : list (K * K)) :
    (exists r c, In r p /\ In c r /\ c <> f0) -> length p <= dy -> (forall r, In r p -> length r <= dx) ->
    NoDup As -> NoDup Bs -> NoDup L -> (forall a b, In (a, b) L -> In a As /\ In b Bs /\ poly2_at p a b = f0) ->
    length L <= (dx - 1) * length Bs + length As * (dy - 1).
  Proof.
    intros [r [c [Hr [Hc Hn]]]] Hy Hx HA HB HL H.
    set (seconds := fun a => filter (fun b => existsb (fun e => feqb a (fst e) && feqb b (snd e)) L) Bs).
    assert (Hs : forall a b, In b (seconds a) -> In (a, b) L).
    { intros a b Hi. apply filter_In in Hi as [_ Hi]. apply existsb_exists in Hi as [[a' b'] [Hi He]]. cbn [fst snd] in He.
      apply andb_true_iff in He as [E1 E2]. apply feqb_spec in E1, E2. now subst. }
    transitivity (list_sum (map (fun a => length (seconds a)) As)).
    - transitivity (length (flat_map (fun a => map (pair a) (seconds a)) As)).
      + apply NoDup_incl_length; [exact HL|]. intros [a b] Hi. destruct (H a b Hi) as [H1 [H2 _]]. apply in_flat_map. exists a. split; [exact H1|].
        apply in_map. apply filter_In. split; [exact H2|]. apply existsb_exists. exists (a, b). split; [exact Hi|]. cbn [fst snd].
        apply andb_true_iff. split; now apply feqb_spec.
      + apply Nat.eq_le_incl. rewrite flat_map_length. f_equal. apply map_ext. intros a. apply map_length.
    - etransitivity; [apply (sum_split (fun a => feqb (poly_at r a) f0) _ (length Bs) (dy - 1))|].
      + intros a. apply NoDup_incl_length; [now apply NoDup_filter|]. apply incl_filter.
      + intros a Ha. apply (roots_few (seconds a) (map (fun r => poly_at r a) p)); [now apply NoDup_filter| |now rewrite map_length|].
        * exists (poly_at r a). split; [apply in_map_iff; now exists r|]. intros E. rewrite (proj2 (feqb_spec K _ _) E) in Ha. discriminate.
        * intros b Hb. rewrite <- poly2_at_first. apply (H a b), Hs, Hb.
      + apply Nat.add_le_mono_r, Nat.mul_le_mono_r. apply (roots_few _ r); [now apply NoDup_filter|exists c; auto|now apply Hx|].
        intros a Ha. apply filter_In in Ha as [_ Ha]. now apply feqb_spec in Ha.
  Qed.
End Rare.

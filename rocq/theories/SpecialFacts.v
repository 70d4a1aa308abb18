(** Special soundness of GIPA: extraction from a 4-ary tree of transcripts (C18). *)
Require Import List Arith NArith Lia Bool Field.
Import ListNotations.
Require Import Verif.Outcome Verif.Algebra Verif.Rust Verif.Spec Verif.ListFacts Verif.RustFacts
  Verif.InnerProducts Verif.Commitments Verif.InnerProductFacts Verif.CommitFacts Verif.Gipa
  Verif.GipaFacts Verif.SerFacts Verif.RootFacts.

(** ** One component *)
Section Side.
  Context {K : field} {M : module K}.
  Add Field KfSide : (f_theory K).
  Implicit Types (d : K) (a : list M).

  Definition slope d1 d2 a1 a2 : list M := zipw (fun x y : M => finv (d1 -f d2) *m (x -m y)) a1 a2.
  Definition icept d1 a1 v : list M := zipw (fun x y : M => x -m d1 *m y) a1 v.
  Definition weight d d' d'' d''' : K := d *f finv ((d -f d') *f ((d -f d'') *f (d -f d'''))).
  Definition lin4 m1 a1 m2 a2 m3 a3 m4 a4 : list M :=
    zipw madd (map (mscale m1) a1) (zipw madd (map (mscale m2) a2) (zipw madd (map (mscale m3) a3) (map (mscale m4) a4))).
  Definition kernel4 d1 d2 d3 d4 a1 a2 a3 a4 : list M :=
    lin4 (weight d1 d2 d3 d4) a1 (weight d2 d1 d3 d4) a2 (weight d3 d1 d2 d4) a3 (weight d4 d1 d2 d3) a4.
  Definition widen d a : list M := a ++ map (mscale (finv d)) a.
  Definition all_zero (l : list M) : bool := forallb (fun x => meqb x m0) l.

  (** an opening of the parent commitment, or a non-trivial opening of zero *)
  Definition side_extract d1 d2 d3 d4 a1 a2 a3 a4 : list M + list M :=
    let w := kernel4 d1 d2 d3 d4 (widen d1 a1) (widen d2 a2) (widen d3 a3) (widen d4 a4) in
    if all_zero w then let v := slope d1 d2 a1 a2 in inl (icept d1 a1 v ++ v) else inr w.

  Lemma all_zero_at l : all_zero l = true -> forall i, at_ l i = m0.
  Proof.
    intros H i. unfold at_. destruct (le_lt_dec (length l) i) as [Hle|Hlt]; [now apply nth_overflow|].
    unfold all_zero in H. rewrite forallb_forall in H. apply meqb_spec, H, nth_In, Hlt.
  Qed.
  Lemma all_zero_false l : all_zero l = false -> exists x, In x l /\ x <> m0.
  Proof.
    induction l as [|x l IH]; [discriminate|]. cbn [all_zero forallb]. intros H.
    destruct (meqb x m0) eqn:E.
    - destruct (IH H) as [y [Hy Hn]]. exists y. split; [now right|exact Hn].
    - exists x. split; [now left|]. intros ->. now rewrite meqb_refl in E.
  Qed.

  Lemma lin4_length m1 a1 m2 a2 m3 a3 m4 a4 n :
    length a1 = n -> length a2 = n -> length a3 = n -> length a4 = n -> length (lin4 m1 a1 m2 a2 m3 a3 m4 a4) = n.
  Proof. intros. unfold lin4. rewrite !zipw_length, !map_length. lia. Qed.

  Lemma at_map_scale x a i : at_ (map (mscale x) a) i = x *m at_ a i.
  Proof.
    unfold at_. destruct (le_lt_dec (length a) i) as [H|H].
    - rewrite !nth_overflow; [symmetry; apply mscale_0_r|auto|now rewrite map_length].
    - rewrite (nth_indep _ m0 (x *m m0)) by (rewrite map_length; auto). apply map_nth.
  Qed.

  Lemma lin4_at m1 a1 m2 a2 m3 a3 m4 a4 n i :
    length a1 = n -> length a2 = n -> length a3 = n -> length a4 = n -> i < n ->
    at_ (lin4 m1 a1 m2 a2 m3 a3 m4 a4) i = m1 *m at_ a1 i +m (m2 *m at_ a2 i +m (m3 *m at_ a3 i +m m4 *m at_ a4 i)).
  Proof.
    intros. unfold lin4. rewrite <- !at_map_scale. unfold at_ at 1.
    rewrite (zipw_nth madd _ _ i m0 m0 m0) by (rewrite ?zipw_length, !map_length; lia).
    rewrite (zipw_nth madd _ _ i m0 m0 m0) by (rewrite ?zipw_length, !map_length; lia).
    rewrite (zipw_nth madd _ _ i m0 m0 m0) by (rewrite ?zipw_length, !map_length; lia). reflexivity.
  Qed.

  Lemma msub_zero {X : module K} (x y : X) : x -m y = m0 -> x = y.
  Proof.
    unfold msub. intros H. apply (madd_cancel_l _ X (mopp y)).
    rewrite (madd_comm _ X (mopp y) x), H. rewrite (madd_comm _ X (mopp y) y), madd_opp. reflexivity.
  Qed.

  Lemma fsub_neq (x y : K) : x <> y -> x -f y <> f0.
  Proof. intros H E. now apply H, (proj1 (fsub_eq0 _ _ _)). Qed.

  Section Distinct.
    Variables d1 d2 d3 d4 : K.
    Hypotheses (N1 : d1 <> f0) (N2 : d2 <> f0) (N3 : d3 <> f0) (N4 : d4 <> f0).
    Hypotheses (H12 : d1 <> d2) (H13 : d1 <> d3) (H14 : d1 <> d4) (H23 : d2 <> d3) (H24 : d2 <> d4) (H34 : d3 <> d4).

    Ltac nz := repeat split; auto; apply fsub_neq; auto.

    Lemma weights_kill {X : module K} (C C1 C2 : X) :
      let T d := d *m C1 +m C +m finv d *m C2 in
      weight d1 d2 d3 d4 *m T d1 +m (weight d2 d1 d3 d4 *m T d2 +m (weight d3 d1 d2 d4 *m T d3 +m weight d4 d1 d2 d3 *m T d4)) = m0.
    Proof using N1 N2 N3 N4 H12 H13 H14 H23 H24 H34. cbv zeta. unfold weight. module_norm; field; nz. Qed.

    (** two relations leave only degree one *)
    Lemma degree_one (x1 x2 x3 x4 : M) :
      weight d1 d2 d3 d4 *m x1 +m (weight d2 d1 d3 d4 *m x2 +m (weight d3 d1 d2 d4 *m x3 +m weight d4 d1 d2 d3 *m x4)) = m0 ->
      weight d1 d2 d3 d4 *m (finv d1 *m x1) +m (weight d2 d1 d3 d4 *m (finv d2 *m x2) +m
        (weight d3 d1 d2 d4 *m (finv d3 *m x3) +m weight d4 d1 d2 d3 *m (finv d4 *m x4))) = m0 ->
      let v := finv (d1 -f d2) *m (x1 -m x2) in let u := x1 -m d1 *m v in
      x1 = d1 *m v +m u /\ x2 = d2 *m v +m u /\ x3 = d3 *m v +m u /\ x4 = d4 *m v +m u.
    Proof using All.
      intros S1 S2. cbv zeta. repeat split.
      - module_norm; field; nz.
      - module_norm; field; nz.
      - apply msub_zero.
        transitivity (((d3 -f d1) *f (d3 -f d2)) *m
          ((weight d1 d2 d3 d4 *m x1 +m (weight d2 d1 d3 d4 *m x2 +m (weight d3 d1 d2 d4 *m x3 +m weight d4 d1 d2 d3 *m x4))) -m
           d4 *m (weight d1 d2 d3 d4 *m (finv d1 *m x1) +m (weight d2 d1 d3 d4 *m (finv d2 *m x2) +m
             (weight d3 d1 d2 d4 *m (finv d3 *m x3) +m weight d4 d1 d2 d3 *m (finv d4 *m x4)))))).
        + unfold weight. module_norm; field; nz.
        + rewrite S1, S2. module_norm; ring.
      - apply msub_zero.
        transitivity (((d4 -f d1) *f (d4 -f d2)) *m
          ((weight d1 d2 d3 d4 *m x1 +m (weight d2 d1 d3 d4 *m x2 +m (weight d3 d1 d2 d4 *m x3 +m weight d4 d1 d2 d3 *m x4))) -m
           d3 *m (weight d1 d2 d3 d4 *m (finv d1 *m x1) +m (weight d2 d1 d3 d4 *m (finv d2 *m x2) +m
             (weight d3 d1 d2 d4 *m (finv d3 *m x3) +m weight d4 d1 d2 d3 *m (finv d4 *m x4)))))).
        + unfold weight. module_norm; field; nz.
        + rewrite S1, S2. module_norm; ring.
    Qed.

    (** equal at three points, equal constant parts *)
    Lemma three_points {X : module K} (C C1 C2 C' C1' C2' : X) :
      (forall d, In d [d1; d2; d3] -> d *m C1 +m C +m finv d *m C2 = d *m C1' +m C' +m finv d *m C2') -> C = C'.
    Proof using N1 N2 N3 H12 H13 H23.
      intros H.
      assert (HF : Forall (fun c => c = m0) [C2 -m C2'; C -m C'; C1 -m C1']).
      { apply (roots_zero [d1; d2; d3]); [|cbn; lia|].
        - repeat constructor; cbn; intuition.
        - intros x Hx. pose proof (H x Hx) as E.
          assert (Hnz : x <> f0) by (destruct Hx as [<-|[<-|[<-|[]]]]; auto).
          transitivity (x *m ((x *m C1 +m C +m finv x *m C2) -m (x *m C1' +m C' +m finv x *m C2'))).
          + cbn [mev]. module_norm; field; auto.
          + rewrite E. module_norm; ring. }
      inversion HF as [|? ? _ HF1]; subst. inversion HF1 as [|? ? HC _]; subst. now apply msub_zero.
    Qed.
  End Distinct.
End Side.

Section SideSpec.
  Context {K : field} {M Key X : module K} (f : Key -> M -> X) (Hf : bilinear f).
  Add Field KfSideSpec : (f_theory K).
  Implicit Types (d : K) (a : list M).

  Lemma dot_lin4 k m1 a1 m2 a2 m3 a3 m4 a4 n : length k = n ->
    length a1 = n -> length a2 = n -> length a3 = n -> length a4 = n ->
    dot f k (lin4 m1 a1 m2 a2 m3 a3 m4 a4) =
    m1 *m dot f k a1 +m (m2 *m dot f k a2 +m (m3 *m dot f k a3 +m m4 *m dot f k a4)).
  Proof.
    intros. unfold lin4. rewrite !(dot_add_r _ Hf) by (rewrite ?zipw_length, !map_length; lia).
    now rewrite !(dot_scale_r _ Hf).
  Qed.

  Lemma dot_widen kl kr d a : length kl = length a -> length kr = length a ->
    dot f (kl ++ kr) (widen d a) = dot f (vfold (finv d) kl kr) a.
  Proof.
    intros H1 H2. unfold widen. rewrite dot_app by auto. rewrite (dot_scale_r _ Hf).
    rewrite vfold_alt, (dot_add_l _ Hf), (dot_scale_l _ Hf) by (rewrite ?map_length; lia). apply madd_comm.
  Qed.

  Variables (kl kr : list Key) (n : nat) (C C1 C2 : X).
  Variables d1 d2 d3 d4 : K.
  Variables a1 a2 a3 a4 : list M.
  Hypotheses (Lkl : length kl = n) (Lkr : length kr = n).
  Hypotheses (L1 : length a1 = n) (L2 : length a2 = n) (L3 : length a3 = n) (L4 : length a4 = n).
  Hypotheses (N1 : d1 <> f0) (N2 : d2 <> f0) (N3 : d3 <> f0) (N4 : d4 <> f0).
  Hypotheses (H12 : d1 <> d2) (H13 : d1 <> d3) (H14 : d1 <> d4) (H23 : d2 <> d3) (H24 : d2 <> d4) (H34 : d3 <> d4).
  Hypothesis E1 : dot f (vfold (finv d1) kl kr) a1 = d1 *m C1 +m C +m finv d1 *m C2.
  Hypothesis E2 : dot f (vfold (finv d2) kl kr) a2 = d2 *m C1 +m C +m finv d2 *m C2.
  Hypothesis E3 : dot f (vfold (finv d3) kl kr) a3 = d3 *m C1 +m C +m finv d3 *m C2.
  Hypothesis E4 : dot f (vfold (finv d4) kl kr) a4 = d4 *m C1 +m C +m finv d4 *m C2.

  Lemma side_spec :
    match side_extract d1 d2 d3 d4 a1 a2 a3 a4 with
    | inl w => exists u v, w = u ++ v /\ length u = n /\ length v = n /\ dot f (kl ++ kr) w = C /\
        a1 = vfold d1 u v /\ a2 = vfold d2 u v /\ a3 = vfold d3 u v /\ a4 = vfold d4 u v
    | inr w => length w = n + n /\ (exists x, In x w /\ x <> m0) /\ dot f (kl ++ kr) w = m0
    end.
  Proof using All.
    assert (LW : forall d a, length a = n -> length (widen d a) = n + n)
      by (intros; unfold widen; rewrite app_length, map_length; lia).
    unfold side_extract. cbv zeta.
    destruct (all_zero _) eqn:Ez.
    - set (v := slope d1 d2 a1 a2). set (u := icept d1 a1 v).
      assert (Lv : length v = n) by (unfold v, slope; rewrite zipw_length; lia).
      assert (Lu : length u = n) by (unfold u, icept; rewrite zipw_length; lia).
      assert (HE : forall i, i < n ->
        at_ a1 i = d1 *m at_ v i +m at_ u i /\ at_ a2 i = d2 *m at_ v i +m at_ u i /\
        at_ a3 i = d3 *m at_ v i +m at_ u i /\ at_ a4 i = d4 *m at_ v i +m at_ u i).
      { intros i Hi.
        assert (Hv : at_ v i = finv (d1 -f d2) *m (at_ a1 i -m at_ a2 i)) by (unfold v, slope; exact (zipw_nth _ a1 a2 i m0 m0 m0 ltac:(lia) ltac:(lia))).
        assert (Hu : at_ u i = at_ a1 i -m d1 *m at_ v i) by (unfold u, icept; exact (zipw_nth _ a1 v i m0 m0 m0 ltac:(lia) ltac:(lia))).
        pose proof (all_zero_at _ Ez i) as Z1. pose proof (all_zero_at _ Ez (n + i)) as Z2. unfold kernel4 in Z1, Z2.
        rewrite (lin4_at _ _ _ _ _ _ _ _ (n + n)) in Z1, Z2 by (auto; lia).
        assert (W1 : forall d a, length a = n -> at_ (widen d a) i = at_ a i)
          by (intros; unfold widen, at_; now rewrite app_nth1 by lia).
        assert (W2 : forall d a, length a = n -> at_ (widen d a) (n + i) = finv d *m at_ a i).
        { intros d a Ha. rewrite <- at_map_scale. unfold widen, at_. rewrite app_nth2 by lia. f_equal. lia. }
        rewrite !W1 in Z1 by auto. rewrite !W2 in Z2 by auto.
        rewrite Hu, Hv. apply (degree_one d1 d2 d3 d4); auto. }
      assert (HV : forall d a, length a = n -> (forall i, i < n -> at_ a i = d *m at_ v i +m at_ u i) -> a = vfold d u v).
      { intros d a Ha Hi. apply (nth_ext_eq _ _ m0); [rewrite vfold_length; lia|]. intros i Hlt. rewrite Ha in Hlt.
        unfold vfold. rewrite (zipw_nth _ u v i m0 m0 m0) by lia. now apply Hi. }
      assert (A1 : a1 = vfold d1 u v) by (apply HV; auto; intros; now apply HE).
      assert (A2 : a2 = vfold d2 u v) by (apply HV; auto; intros; now apply HE).
      assert (A3 : a3 = vfold d3 u v) by (apply HV; auto; intros; now apply HE).
      assert (A4 : a4 = vfold d4 u v) by (apply HV; auto; intros; now apply HE).
      exists u, v. repeat split; auto. symmetry. rewrite dot_app by lia.
      apply (three_points d1 d2 d3) with (C1 := C1) (C2 := C2) (C1' := dot f kl v) (C2' := dot f kr u); auto.
      intros d Hd.
      assert (HG : forall d, d <> f0 -> dot f (vfold (finv d) kl kr) (vfold d u v) = d *m dot f kl v +m (dot f kl u +m dot f kr v) +m finv d *m dot f kr u).
      { intros d0 Hd0. rewrite !vfold_alt.
        rewrite (dot_add_l _ Hf) by (rewrite ?zipw_length, ?map_length; lia). rewrite (dot_scale_l _ Hf).
        rewrite !(dot_add_r _ Hf) by (rewrite ?map_length; lia). rewrite !(dot_scale_r _ Hf).
        generalize (dot f kr v) (dot f kr u) (dot f kl v) (dot f kl u). intros. module_norm; field; auto. }
      destruct Hd as [<-|[<-|[<-|[]]]].
      + rewrite <- E1, A1. now apply HG.
      + rewrite <- E2, A2. now apply HG.
      + rewrite <- E3, A3. now apply HG.
    - assert (HL : length (kl ++ kr) = n + n) by (rewrite app_length; lia).
      split; [unfold kernel4; apply lin4_length; auto|]. split; [now apply all_zero_false|].
      unfold kernel4. rewrite (dot_lin4 _ _ _ _ _ _ _ _ _ (n + n)) by auto.
      rewrite !dot_widen by lia. rewrite E1, E2, E3, E4. apply (weights_kill d1 d2 d3 d4); auto.
  Qed.
End SideSpec.

(** ** Trees *)
Inductive tree (S C A B : Type) : Type :=
| Leaf (a : A) (b : B)
| Node (s : S) (c1 c2 c3 c4 : C) (t1 t2 t3 t4 : tree S C A B).
Arguments Leaf {S C A B}.
Arguments Node {S C A B}.

(** root to leaf: rounds, challenges, last message *)
Fixpoint paths {S C A B} (t : tree S C A B) : list (list S * list C * (A * B)) :=
  match t with
  | Leaf a b => [([], [], (a, b))]
  | Node s c1 c2 c3 c4 t1 t2 t3 t4 =>
    let ext c := map (fun p : list S * list C * (A * B) => (s :: fst (fst p), c :: snd (fst p), snd p)) in
    ext c1 (paths t1) ++ ext c2 (paths t2) ++ ext c3 (paths t3) ++ ext c4 (paths t4)
  end.

Fixpoint distinct_challenges {S C A B} (t : tree S C A B) : Prop :=
  match t with
  | Leaf _ _ => True
  | Node _ c1 c2 c3 c4 t1 t2 t3 t4 =>
    NoDup [c1; c2; c3; c4] /\ distinct_challenges t1 /\ distinct_challenges t2 /\ distinct_challenges t3 /\ distinct_challenges t4
  end.

Section Extract.
  Context {K : field} {MA MB : module K}.

  (** messages a, b, or a non-trivial opening of zero *)
  Inductive extracted : Type :=
  | Witness (a : list MA) (b : list MB)
  | KernelA (w : list MA)
  | KernelB (w : list MB).

  (** continue with the witness of a child; a kernel vector is widened to the parent's keys *)
  Definition with_witness (e : extracted) (c : K) (k : list MA -> list MB -> extracted) : extracted :=
    match e with
    | Witness a b => k a b
    | KernelA w => KernelA (widen c w)
    | KernelB w => KernelB (widen (finv c) w)
    end.

  Fixpoint extract {S} (t : tree S K MA MB) : extracted :=
    match t with
    | Leaf a b => Witness [a] [b]
    | Node _ c1 c2 c3 c4 t1 t2 t3 t4 =>
      with_witness (extract t1) c1 (fun a1 b1 =>
      with_witness (extract t2) c2 (fun a2 b2 =>
      with_witness (extract t3) c3 (fun a3 b3 =>
      with_witness (extract t4) c4 (fun a4 b4 =>
        match side_extract c1 c2 c3 c4 a1 a2 a3 a4 with
        | inr w => KernelA w
        | inl a =>
          match side_extract (finv c1) (finv c2) (finv c3) (finv c4) b1 b2 b3 b4 with
          | inr w => KernelB w
          | inl b => Witness a b
          end
        end))))
    end.
End Extract.
Arguments extracted {K} MA MB.

Section Sound.
  Context {K : field} {MA MB MT KA KB KT XA XB XT : module K} {S : Type}.
  Add Field KfSound : (f_theory K).
  Variables (fA : KA -> MA -> XA) (fB : KB -> MB -> XB) (fT : KT -> MT -> XT) (th : MA -> MB -> MT).
  Hypotheses (HA : bilinear fA) (HB : bilinear fB) (HTh : bilinear th).
  Hypothesis HTa : forall k a b, fT k (a +m b) = fT k a +m fT k b.
  Hypothesis HTs : forall k x a, fT k (x *m a) = x *m fT k a.
  Variable kt : KT.
  Variables (pA : S -> XA * XA) (pB : S -> XB * XB) (pT : S -> XT * XT).

  (** every node's children satisfy the folded statement *)
  Fixpoint sat (ka : list KA) (kb : list KB) (A : XA) (B : XB) (T : XT) (t : tree S K MA MB) : Prop :=
    match t with
    | Leaf a b => exists k l, ka = [k] /\ kb = [l] /\ fA k a = A /\ fB l b = B /\ fT kt (th a b) = T
    | Node s c1 c2 c3 c4 t1 t2 t3 t4 =>
      NoDup [c1; c2; c3; c4] /\ ~ In f0 [c1; c2; c3; c4] /\
      exists kal kar kbl kbr, ka = kal ++ kar /\ kb = kbl ++ kbr /\
        length kal = length kar /\ length kbl = length kar /\ length kbr = length kar /\
        let child c t := sat (vfold (finv c) kal kar) (vfold c kbl kbr)
                             (c *m fst (pA s) +m A +m finv c *m snd (pA s)) (c *m fst (pB s) +m B +m finv c *m snd (pB s))
                             (c *m fst (pT s) +m T +m finv c *m snd (pT s)) t in
        child c1 t1 /\ child c2 t2 /\ child c3 t3 /\ child c4 t4
    end.

  Definition ext_ok (ka : list KA) (kb : list KB) (A : XA) (B : XB) (T : XT) (e : extracted MA MB) : Prop :=
    match e with
    | Witness a b => length a = length ka /\ length b = length kb /\ dot fA ka a = A /\ dot fB kb b = B /\ fT kt (dot th a b) = T
    | KernelA w => length w = length ka /\ (exists x, In x w /\ x <> m0) /\ dot fA ka w = m0
    | KernelB w => length w = length kb /\ (exists x, In x w /\ x <> m0) /\ dot fB kb w = m0
    end.

  Lemma with_witness_ok kal kar kbl kbr A B T c e k A0 B0 T0 :
    c <> f0 -> length kal = length kar -> length kbl = length kar -> length kbr = length kar ->
    ext_ok (vfold (finv c) kal kar) (vfold c kbl kbr) A B T e ->
    (forall a b, length a = length kar -> length b = length kar ->
       dot fA (vfold (finv c) kal kar) a = A -> dot fB (vfold c kbl kbr) b = B -> fT kt (dot th a b) = T ->
       ext_ok (kal ++ kar) (kbl ++ kbr) A0 B0 T0 (k a b)) ->
    ext_ok (kal ++ kar) (kbl ++ kbr) A0 B0 T0 (with_witness e c k).
  Proof using HA HB.
    intros Hc L1 L2 L3 HE Hk. destruct e as [a b|w|w]; cbn [with_witness ext_ok] in *.
    - destruct HE as [La [Lb [Ea [Eb Et]]]]. rewrite vfold_length in La by lia. rewrite vfold_length in Lb by lia. apply Hk; auto; lia.
    - destruct HE as [Lw [[x [Hx Hn]] Ew]]. rewrite vfold_length in Lw by lia. split; [|split].
      + unfold widen. rewrite !app_length, map_length. lia.
      + exists x. split; auto. unfold widen. apply in_or_app. now left.
      + rewrite (dot_widen fA HA) by lia. exact Ew.
    - destruct HE as [Lw [[x [Hx Hn]] Ew]]. rewrite vfold_length in Lw by lia. split; [|split].
      + unfold widen. rewrite !app_length, map_length. lia.
      + exists x. split; auto. unfold widen. apply in_or_app. now left.
      + rewrite (dot_widen fB HB) by lia. rewrite finv_finv by auto. exact Ew.
  Qed.

  Lemma extract_sound t : forall ka kb A B T, sat ka kb A B T t -> ext_ok ka kb A B T (extract t).
  Proof using HA HB HTh HTa HTs.
    induction t as [a b|s c1 c2 c3 c4 t1 IH1 t2 IH2 t3 IH3 t4 IH4]; intros ka kb A B T Hs; cbn [sat extract] in *.
    - destruct Hs as [k [l [-> [-> [<- [<- <-]]]]]]. cbn [ext_ok]. rewrite !dot_single. auto.
    - destruct Hs as [Hnd [Hnz [kal [kar [kbl [kbr [-> [-> [L1 [L2 [L3 [S1 [S2 [S3 S4]]]]]]]]]]]]]].
      assert (N1 : c1 <> f0) by (intros ->; apply Hnz; cbn; auto).
      assert (N2 : c2 <> f0) by (intros ->; apply Hnz; cbn; auto).
      assert (N3 : c3 <> f0) by (intros ->; apply Hnz; cbn; auto).
      assert (N4 : c4 <> f0) by (intros ->; apply Hnz; cbn; auto).
      assert (HD : (c1 <> c2 /\ c1 <> c3 /\ c1 <> c4) /\ (c2 <> c3 /\ c2 <> c4) /\ c3 <> c4).
      { inversion Hnd as [|? ? I1 Hnd1]; subst. inversion Hnd1 as [|? ? I2 Hnd2]; subst. inversion Hnd2 as [|? ? I3 _]; subst.
        cbn in I1, I2, I3. repeat split; intros ->; tauto. }
      destruct HD as [[H12 [H13 H14]] [[H23 H24] H34]].
      apply IH1 in S1. apply IH2 in S2. apply IH3 in S3. apply IH4 in S4. clear IH1 IH2 IH3 IH4.
      eapply with_witness_ok; [..|exact S1|]; auto. intros a1 b1 La1 Lb1 Ea1 Eb1 Et1.
      eapply with_witness_ok; [..|exact S2|]; auto. intros a2 b2 La2 Lb2 Ea2 Eb2 Et2.
      eapply with_witness_ok; [..|exact S3|]; auto. intros a3 b3 La3 Lb3 Ea3 Eb3 Et3.
      eapply with_witness_ok; [..|exact S4|]; auto. intros a4 b4 La4 Lb4 Ea4 Eb4 Et4.
      pose proof (side_spec fA HA kal kar (length kar) A (fst (pA s)) (snd (pA s)) c1 c2 c3 c4 a1 a2 a3 a4 L1 eq_refl La1 La2 La3 La4
                    N1 N2 N3 N4 H12 H13 H14 H23 H24 H34 Ea1 Ea2 Ea3 Ea4) as SA.
      assert (Hinv : forall x y : K, x <> f0 -> y <> f0 -> x <> y -> finv x <> finv y).
      { intros x y Hx Hy Hxy E. apply Hxy. rewrite <- (finv_finv _ x), <- (finv_finv _ y) by auto. now rewrite E. }
      assert (HsB : forall (c : K) b, c <> f0 -> dot fB (vfold c kbl kbr) b = c *m fst (pB s) +m B +m finv c *m snd (pB s) ->
                dot fB (vfold (finv (finv c)) kbl kbr) b = finv c *m snd (pB s) +m B +m finv (finv c) *m fst (pB s)).
      { intros c b Hc E. rewrite finv_finv by auto. rewrite E. generalize (fst (pB s)) (snd (pB s)). intros. module_norm; ring. }
      pose proof (side_spec fB HB kbl kbr (length kar) B (snd (pB s)) (fst (pB s)) (finv c1) (finv c2) (finv c3) (finv c4) b1 b2 b3 b4 L2 L3 Lb1 Lb2 Lb3 Lb4
                    (finv_neq0 _ _ N1) (finv_neq0 _ _ N2) (finv_neq0 _ _ N3) (finv_neq0 _ _ N4)
                    (Hinv _ _ N1 N2 H12) (Hinv _ _ N1 N3 H13) (Hinv _ _ N1 N4 H14) (Hinv _ _ N2 N3 H23) (Hinv _ _ N2 N4 H24) (Hinv _ _ N3 N4 H34)
                    (HsB _ _ N1 Eb1) (HsB _ _ N2 Eb2) (HsB _ _ N3 Eb3) (HsB _ _ N4 Eb4)) as SB.
      destruct (side_extract c1 c2 c3 c4 a1 a2 a3 a4) as [wa|wa].
      2:{ cbn [ext_ok]. rewrite app_length, L1. exact SA. }
      destruct (side_extract (finv c1) (finv c2) (finv c3) (finv c4) b1 b2 b3 b4) as [wb|wb].
      2:{ cbn [ext_ok]. rewrite app_length, L2, L3. exact SB. }
      destruct SA as [u [v [-> [Lu [Lv [EA [-> [-> [-> ->]]]]]]]]].
      destruct SB as [u' [v' [-> [Lu' [Lv' [EB [-> [-> [-> ->]]]]]]]]].
      cbn [ext_ok]. rewrite !app_length. repeat split; auto; try lia.
      rewrite dot_app by lia. symmetry.
      assert (HG : forall d : K, d <> f0 -> fT kt (dot th (vfold d u v) (vfold (finv d) u' v')) =
                 d *m fT kt (dot th v u') +m fT kt (dot th u u' +m dot th v v') +m finv d *m fT kt (dot th u v')).
      { intros d Hd. rewrite <- !HTs, <- !HTa. f_equal. rewrite !vfold_alt.
        rewrite (dot_add_l _ HTh) by (rewrite ?zipw_length, ?map_length; lia). rewrite (dot_scale_l _ HTh).
        rewrite !(dot_add_r _ HTh) by (rewrite ?map_length; lia). rewrite !(dot_scale_r _ HTh).
        generalize (dot th u u') (dot th v v') (dot th u v') (dot th v u'). intros. module_norm; field; auto. }
      apply (three_points c1 c2 c3) with (C1 := fst (pT s)) (C2 := snd (pT s)) (C1' := fT kt (dot th v u')) (C2' := fT kt (dot th u v')); auto.
      intros d [<-|[<-|[<-|[]]]].
      + rewrite <- Et1. now apply HG.
      + rewrite <- Et2. now apply HG.
      + rewrite <- Et3. now apply HG.
  Qed.
End Sound.

(** ** From accepting paths to [sat] *)
Lemma paths_nonempty {S C A B} (t : tree S C A B) : paths t <> [].
Proof.
  induction t as [|s c1 c2 c3 c4 t1 IH1 t2 IH2 t3 IH3 t4 IH4]; cbn [paths]; [discriminate|].
  destruct (paths t1); [contradiction|discriminate].
Qed.

Section Paths.
  Context {K : field} {MA MB MT KA KB KT XA XB XT : module K} {OA OB OT : carrier K}.
  Variables (fA : KA -> MA -> XA) (fB : KB -> MB -> XB) (fT : KT -> MT -> XT) (th : MA -> MB -> MT).
  Variable kt : KT.
  Variables (prA : com3 OA OB OT -> XA) (prB : com3 OA OB OT -> XB) (prT : com3 OA OB OT -> XT).
  Notation step := (com3 OA OB OT * com3 OA OB OT)%type.
  Definition both {X} (pr : com3 OA OB OT -> X) (s : step) : X * X := (pr (fst s), pr (snd s)).

  Definition path_ok (ka : list KA) (kb : list KB) (A : XA) (B : XB) (T : XT) (st : list step) (cs : list K) (a : MA) (b : MB) : Prop :=
    length cs = length st /\ Forall (fun c => c <> f0) cs /\
    length ka = 2 ^ length st /\ length kb = 2 ^ length st /\
    fA (dot smul ka (subs (map finv (rev cs)) : list (fmod K))) a = cfold1 (O := mod_carrier XA) prA A st cs /\
    fB (dot smul kb (subs (rev cs) : list (fmod K))) b = cfold1 (O := mod_carrier XB) prB B st cs /\
    fT kt (th a b) = cfold1 (O := mod_carrier XT) prT T st cs.

  Lemma path_ok_child ka kb A B T s st c cs a b :
    path_ok ka kb A B T (s :: st) (c :: cs) a b ->
    c <> f0 /\ length ka = 2 * (length ka / 2) /\ length kb = length ka /\
    path_ok (vfold (finv c) (firstn (length ka / 2) ka) (skipn (length ka / 2) ka))
            (vfold c (firstn (length ka / 2) kb) (skipn (length ka / 2) kb))
            (c *m prA (fst s) +m A +m finv c *m prA (snd s)) (c *m prB (fst s) +m B +m finv c *m prB (snd s))
            (c *m prT (fst s) +m T +m finv c *m prT (snd s)) st cs a b.
  Proof.
    intros [Hl [Hnz [La [Lb [EA [EB ET]]]]]]. cbn [length] in Hl, La, Lb. injection Hl as Hl.
    inversion Hnz as [|? ? Hc Hcs]; subst. rewrite Nat.pow_succ_r' in La, Lb.
    assert (Hh : length ka / 2 = 2 ^ length st) by (rewrite La, Nat.mul_comm; apply Nat.div_mul; lia).
    rewrite Hh. split; [exact Hc|]. split; [lia|]. split; [lia|].
    assert (F1 : length (firstn (2 ^ length st) ka) = 2 ^ length st) by (rewrite firstn_length; lia).
    assert (F2 : length (skipn (2 ^ length st) ka) = 2 ^ length st) by (rewrite skipn_length; lia).
    assert (F3 : length (firstn (2 ^ length st) kb) = 2 ^ length st) by (rewrite firstn_length; lia).
    assert (F4 : length (skipn (2 ^ length st) kb) = 2 ^ length st) by (rewrite skipn_length; lia).
    assert (Hr : length (rev cs) = length st) by (rewrite rev_length; exact Hl).
    unfold path_ok. repeat split; auto; try (rewrite vfold_length; congruence).
    - etransitivity; [|exact EA]. f_equal. cbn [rev]. rewrite map_app. cbn [map]. symmetry.
      etransitivity; [|apply dot_subs_fold; rewrite ?map_length, ?Hr; auto]. now rewrite firstn_skipn.
    - etransitivity; [|exact EB]. f_equal. cbn [rev]. symmetry.
      etransitivity; [|apply dot_subs_fold; rewrite ?Hr; auto]. now rewrite firstn_skipn.
  Qed.

  Lemma paths_sat t : forall ka kb A B T,
    distinct_challenges t ->
    (forall st cs a b, In (st, cs, (a, b)) (paths t) -> path_ok ka kb A B T st cs a b) ->
    sat fA fB fT th kt (both prA) (both prB) (both prT) ka kb A B T t.
  Proof.
    induction t as [a b|s c1 c2 c3 c4 t1 IH1 t2 IH2 t3 IH3 t4 IH4]; intros ka kb A B T Hd Hp; cbn [sat paths distinct_challenges] in *.
    - destruct (Hp [] [] a b (or_introl eq_refl)) as [_ [_ [La [Lb [EA [EB ET]]]]]]. cbn [length Nat.pow] in La, Lb.
      destruct ka as [|k [|? ?]]; try discriminate. destruct kb as [|l [|? ?]]; try discriminate.
      assert (Hs : forall (M : module K) (x : M), dot smul [x] (subs [] : list (fmod K)) = x).
      { intros M x. etransitivity; [apply (dot_single smul x (f1 : fmod K))|]. apply mscale_1. }
      cbn [rev map cfold1] in EA, EB, ET. rewrite Hs in EA. rewrite Hs in EB. exists k, l. auto.
    - destruct Hd as [Hnd [D1 [D2 [D3 D4]]]].
      assert (Hch : forall c t', (forall st cs a b, In (st, cs, (a, b)) (paths t') -> path_ok ka kb A B T (s :: st) (c :: cs) a b) ->
        c <> f0 /\ length ka = 2 * (length ka / 2) /\ length kb = length ka /\
        forall st cs a b, In (st, cs, (a, b)) (paths t') ->
        path_ok (vfold (finv c) (firstn (length ka / 2) ka) (skipn (length ka / 2) ka))
            (vfold c (firstn (length ka / 2) kb) (skipn (length ka / 2) kb))
            (c *m prA (fst s) +m A +m finv c *m prA (snd s)) (c *m prB (fst s) +m B +m finv c *m prB (snd s))
            (c *m prT (fst s) +m T +m finv c *m prT (snd s)) st cs a b).
      { intros c t' H. pose proof (paths_nonempty t') as Hne. destruct (paths t') as [|[[st0 cs0] [a0 b0]] l]; [contradiction|].
        destruct (path_ok_child _ _ _ _ _ _ _ _ _ _ _ (H st0 cs0 a0 b0 (or_introl eq_refl))) as [Hc [He [Hk _]]].
        repeat split; auto; intros; eapply path_ok_child; eauto. }
      assert (Hin : forall c t' st cs a b, In (st, cs, (a, b)) (paths t') ->
        In (s :: st, c :: cs, (a, b)) (map (fun p : list step * list K * (MA * MB) => (s :: fst (fst p), c :: snd (fst p), snd p)) (paths t'))).
      { intros c t' st cs a b H. apply in_map_iff. exists (st, cs, (a, b)). auto. }
      destruct (Hch c1 t1) as [N1 [He [Hk P1]]]; [intros; apply Hp; rewrite !in_app_iff; auto|].
      destruct (Hch c2 t2) as [N2 [_ [_ P2]]]; [intros; apply Hp; rewrite !in_app_iff; auto|].
      destruct (Hch c3 t3) as [N3 [_ [_ P3]]]; [intros; apply Hp; rewrite !in_app_iff; auto|].
      destruct (Hch c4 t4) as [N4 [_ [_ P4]]]; [intros; apply Hp; rewrite !in_app_iff; auto|].
      split; [exact Hnd|]. split; [cbn; intuition congruence|].
      exists (firstn (length ka / 2) ka), (skipn (length ka / 2) ka), (firstn (length ka / 2) kb), (skipn (length ka / 2) kb).
      rewrite !firstn_skipn. repeat split; try (rewrite ?firstn_length, ?skipn_length; lia); auto.
  Qed.
End Paths.

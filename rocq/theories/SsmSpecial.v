(** Extraction from trees of transcripts when the right message is public (structured scalar messages): C74. *)
Require Import List Arith NArith Lia Bool Field.
Import ListNotations.
Require Import Verif.Outcome Verif.Algebra Verif.Rust Verif.Spec Verif.ListFacts Verif.RustFacts
  Verif.InnerProducts Verif.Commitments Verif.InnerProductFacts Verif.CommitFacts Verif.Gipa Verif.Ssm
  Verif.GipaFacts Verif.SerFacts Verif.RootFacts Verif.SpecialFacts.

(** Pairs of modules. *)
Definition prodmod {K : field} (M N : module K) : module K.
Proof.
  refine {| mcar := (M * N)%type; m0 := (m0, m0); madd := fun x y => (fst x +m fst y, snd x +m snd y);
            mopp := fun x => (mopp (fst x), mopp (snd x)); mscale := fun c x => (c *m fst x, c *m snd x);
            meqb := fun x y => meqb (fst x) (fst y) && meqb (snd x) (snd y); mser := fun x => mser (fst x) ++ mser (snd x) |};
    intros; repeat match goal with x : (_ * _)%type |- _ => destruct x end; cbn [fst snd];
    try (f_equal; auto using madd_comm, madd_assoc, madd_0_l, madd_opp, mscale_1, mscale_mul, mscale_add_r, mscale_add_l; fail).
  rewrite andb_true_iff, !meqb_spec. split; [intros [-> ->]; reflexivity|intros [= -> ->]; auto].
Defined.

Section Prod.
  Context {K : field} {M N : module K}.
  Lemma msum_prod (l : list (prodmod M N)) : msum l = (msum (map fst l), msum (map snd l)).
  Proof.
    induction l as [|x l IH]; [reflexivity|]. cbn [map]. change (msum (x :: l)) with (x +m msum l). rewrite IH. reflexivity.
  Qed.
  Lemma map_zipw {A B C D'} (g : C -> D') (f : A -> B -> C) : forall l r, map g (zipw f l r) = zipw (fun a b => g (f a b)) l r.
  Proof. induction l as [|a l IH]; intros [|b r]; try reflexivity. cbn. f_equal. apply IH. Qed.
  Lemma zipw_combine_l {A B C D'} (f : A -> C -> D') : forall (l : list A) (l' : list B) (r : list C), length l = length l' ->
    zipw (fun (p : A * B) c => f (fst p) c) (combine l l') r = zipw f l r.
  Proof. induction l as [|a l IH]; intros [|b l'] [|c r] H; try discriminate; try reflexivity. cbn in *. f_equal. apply IH. lia. Qed.
  Lemma zipw_combine_r {A B C D'} (f : B -> C -> D') : forall (l : list A) (l' : list B) (r : list C), length l = length l' ->
    zipw (fun (p : A * B) c => f (snd p) c) (combine l l') r = zipw f l' r.
  Proof. induction l as [|a l IH]; intros [|b l'] [|c r] H; try discriminate; try reflexivity. cbn in *. f_equal. apply IH. lia. Qed.

  (** a key whose elements are pairs *)
  Context {Msg X Y : module K} (f : M -> Msg -> X) (g : N -> Msg -> Y).
  Definition both_f (k : prodmod M N) (a : Msg) : prodmod X Y := (f (fst k) a, g (snd k) a).
  Lemma both_bilinear : bilinear f -> bilinear g -> bilinear both_f.
  Proof.
    intros [F1 F2 F3 F4] [G1 G2 G3 G4]. split; unfold both_f; intros; cbn [prodmod madd mscale fst snd]; f_equal; auto.
  Qed.
End Prod.
Lemma dot_both {K : field} {M N Msg X Y : module K} (f : M -> Msg -> X) (g : N -> Msg -> Y) (l : list M) (l' : list N) (r : list Msg) :
  length l = length l' -> dot (both_f f g) (combine l l' : list (prodmod M N)) r = (dot f l r, dot g l' r).
Proof.
  intros H. unfold dot. etransitivity; [apply msum_prod|]. f_equal.
  - f_equal. etransitivity; [apply (map_zipw fst (both_f f g))|]. exact (zipw_combine_l f l l' r H).
  - f_equal. etransitivity; [apply (map_zipw snd (both_f f g))|]. exact (zipw_combine_r g l l' r H).
Qed.
Lemma cfold1_prod {K : field} {OA OB OT : carrier K} {X Y : module K} (p : com3 OA OB OT -> X) (q : com3 OA OB OT -> Y) :
  forall st cs x y, cfold1 (O := mod_carrier (prodmod X Y)) (fun c => (p c, q c)) (x, y) st cs =
    (cfold1 (O := mod_carrier X) p x st cs, cfold1 (O := mod_carrier Y) q y st cs).
Proof. induction st as [|s st IH]; intros [|c cs] x y; try reflexivity. cbn [cfold1]. apply IH. Qed.

(** the leaves' right messages play no part *)
Fixpoint strip {K : field} {S A B} (t : tree S K A B) : tree S K A (unitmod K) :=
  match t with
  | Leaf a _ => Leaf a (tt : unitmod K)
  | Node s c1 c2 c3 c4 t1 t2 t3 t4 => Node s c1 c2 c3 c4 (strip t1) (strip t2) (strip t3) (strip t4)
  end.
(** an opening of the commitment, or a non-trivial opening of zero *)
Definition extract1 {K : field} {MA : module K} {S B} (t : tree S K MA B) : list MA + list MA :=
  match extract (strip t) with Witness a _ => inl a | KernelA w => inr w | KernelB _ => inr [] end.

Section Strip.
  Context {K : field} {S A B : Type}.
  Lemma strip_paths (t : tree S K A B) st cs a u : In (st, cs, (a, u)) (paths (strip t)) -> exists b, In (st, cs, (a, b)) (paths t).
  Proof.
    revert st cs. induction t as [a0 b0|s c1 c2 c3 c4 t1 IH1 t2 IH2 t3 IH3 t4 IH4]; intros st cs H; cbn [strip paths] in *.
    - destruct H as [H|[]]. injection H as <- <- <- <-. exists b0. now left.
    - rewrite !in_app_iff in H. setoid_rewrite in_app_iff. setoid_rewrite in_app_iff. setoid_rewrite in_app_iff.
      assert (HG : forall c t, (forall st cs, In (st, cs, (a, u)) (paths (strip t)) -> exists b, In (st, cs, (a, b)) (paths t)) ->
        In (st, cs, (a, u)) (map (fun p : list S * list K * (A * unitmod K) => (s :: fst (fst p), c :: snd (fst p), snd p)) (paths (strip t))) ->
        exists b, In (st, cs, (a, b)) (map (fun p : list S * list K * (A * B) => (s :: fst (fst p), c :: snd (fst p), snd p)) (paths t))).
      { intros c t IH Hin. apply in_map_iff in Hin as [[[st' cs'] [a' u']] [E Hin]]. cbn [fst snd] in E. injection E as <- <- -> ->.
        destruct (IH _ _ Hin) as [b Hb]. exists b. apply in_map_iff. now exists (st', cs', (a, b)). }
      destruct H as [H|[H|[H|H]]]; [destruct (HG _ _ IH1 H) as [b Hb]|destruct (HG _ _ IH2 H) as [b Hb]|destruct (HG _ _ IH3 H) as [b Hb]|destruct (HG _ _ IH4 H) as [b Hb]];
        exists b; tauto.
  Qed.
  Lemma strip_distinct (t : tree S K A B) : distinct_challenges t -> distinct_challenges (strip t).
  Proof. induction t; cbn; intuition. Qed.
End Strip.

Section Sound1.
  Context {K : field} {MA MT KA XA : module K} {OA OB OT : carrier K}.
  Variables (fA : KA -> MA -> XA) (th : MA -> fmod K -> MT).
  Hypotheses (HA : bilinear fA) (HTh : bilinear th).
  Variables (prA : com3 OA OB OT -> XA) (prT : com3 OA OB OT -> MT).
  Notation step := (com3 OA OB OT * com3 OA OB OT)%type.

  Definition path1_ok (ka : list KA) (kb : list (fmod K)) (A : XA) (T : MT) (st : list step) (cs : list K) (a : MA) : Prop :=
    length cs = length st /\ Forall (fun c => c <> f0) cs /\ length ka = 2 ^ length st /\ length kb = 2 ^ length st /\
    fA (dot smul ka (subs (map finv (rev cs)) : list (fmod K))) a = cfold1 (O := mod_carrier XA) prA A st cs /\
    th a (dot smul kb (subs (map finv (rev cs)) : list (fmod K))) = cfold1 (O := mod_carrier MT) prT T st cs.

  Lemma extract1_sound {B} ka kb A T (t : tree step K MA B) : distinct_challenges t ->
    (forall st cs a b, In (st, cs, (a, b)) (paths t) -> path1_ok ka kb A T st cs a) ->
    match extract1 t with
    | inl a => length a = length ka /\ length a = length kb /\ dot fA ka a = A /\ dot th a kb = T
    | inr w => length w = length ka /\ (exists x, In x w /\ x <> m0) /\ dot fA ka w = m0
    end.
  Proof using HA HTh.
    intros Hd Hp.
    set (fAT := both_f fA (fun (s : fmod K) (a : MA) => th a s)).
    set (fB := fun (_ : unitmod K) (_ : unitmod K) => (tt : unitmod K)).
    set (fT := fun (_ : unitmod K) (_ : unitmod K) => (tt : unitmod K)).
    set (th' := fun (_ : MA) (_ : unitmod K) => (tt : unitmod K)).
    set (prAT := fun c => (prA c, prT c) : prodmod XA MT).
    set (pr0 := fun _ : com3 OA OB OT => (tt : unitmod K)).
    assert (Hth : bilinear (fun (s : fmod K) (a : MA) => th a s)) by (destruct HTh; split; intros; auto).
    assert (HAT : bilinear fAT) by (apply both_bilinear; auto).
    assert (Lk : length ka = length kb).
    { pose proof (paths_nonempty t) as Hne. destruct (paths t) as [|[[st cs] [a b]] l]; [contradiction|].
      destruct (Hp st cs a b (or_introl eq_refl)) as [_ [_ [H1 [H2 _]]]]. congruence. }
    assert (Lc : length (combine ka kb) = length ka) by (rewrite combine_length, <- Lk; apply Nat.min_id).
    assert (Hu : forall x y : unitmod K, x = y) by (intros [] []; reflexivity).
    assert (Hs : sat fAT fB fT th' (tt : unitmod K) (both prAT) (both pr0) (both pr0)
              (combine ka kb : list (prodmod KA (fmod K))) (repeat (tt : unitmod K) (length ka)) ((A, T) : prodmod XA MT) (tt : unitmod K) (tt : unitmod K) (strip t)).
    { apply paths_sat; [now apply strip_distinct|]. intros st cs a u Hin. apply strip_paths in Hin as [b Hin].
      destruct (Hp _ _ _ _ Hin) as [P1 [P2 [P3 [P4 [P5 P6]]]]]. unfold path_ok. split; [exact P1|]. split; [exact P2|].
      split; [etransitivity; [exact Lc|exact P3]|]. split; [now rewrite repeat_length|].
      split; [|split; apply Hu].
      unfold prAT. rewrite cfold1_prod, <- P5, <- P6. unfold fAT, both_f.
      assert (Es : dot smul (combine ka kb : list (prodmod KA (fmod K))) (subs (map finv (rev cs)) : list (fmod K)) =
        (dot smul ka (subs (map finv (rev cs)) : list (fmod K)), dot smul kb (subs (map finv (rev cs)) : list (fmod K)))).
      { etransitivity; [|apply (dot_both smul smul); exact Lk]. reflexivity. }
      rewrite Es. reflexivity. }
    apply extract_sound in Hs; auto; try (split; reflexivity); try (intros; apply Hu).
    unfold extract1. destruct (extract (strip t)) as [a u|w|w]; cbn [ext_ok] in Hs.
    - destruct Hs as [L1 [_ [E1 _]]]. assert (L1' : length a = length ka) by (etransitivity; [exact L1|exact Lc]).
      unfold fAT in E1. rewrite dot_both in E1 by exact Lk. injection E1 as E1 E2. split; [exact L1'|]. split; [congruence|]. split; [exact E1|].
      rewrite <- E2. symmetry. apply dot_flip.
    - destruct Hs as [L1 [Hn E1]]. split; [etransitivity; [exact L1|exact Lc]|]. split; [exact Hn|].
      unfold fAT in E1. rewrite dot_both in E1 by exact Lk. now injection E1.
    - exfalso. destruct Hs as [_ [[x [_ Hn]] _]]. apply Hn, Hu.
  Qed.
End Sound1.

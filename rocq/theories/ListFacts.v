(** Facts about lists, sums and bilinear "dot products". *)
Require Import List Arith NArith Lia Bool Field.
Import ListNotations.
Require Import Verif.Outcome Verif.Algebra Verif.Rust Verif.Spec.

Lemma zipw_length {A B C} (f : A -> B -> C) l r : length (zipw f l r) = Nat.min (length l) (length r).
Proof. revert r. induction l; destruct r; cbn; auto. Qed.

Lemma zipw_length_eq {A B C} (f : A -> B -> C) l r : length l = length r -> length (zipw f l r) = length l.
Proof. intros H. rewrite zipw_length, H. lia. Qed.

Lemma zipw_app {A B C} (f : A -> B -> C) l1 l2 r1 r2 :
  length l1 = length r1 -> zipw f (l1 ++ l2) (r1 ++ r2) = zipw f l1 r1 ++ zipw f l2 r2.
Proof. revert r1. induction l1; destruct r1; cbn; intros; try discriminate; auto. f_equal. auto. Qed.

Lemma zipw_map_combine {A B C} (f : A -> B -> C) l r :
  zipw f l r = map (fun p => f (fst p) (snd p)) (combine l r).
Proof. revert r. induction l; destruct r; cbn; auto. now rewrite IHl. Qed.

Lemma zipw_nth {A B C} (f : A -> B -> C) l r i da db dc :
  i < length l -> i < length r -> nth i (zipw f l r) dc = f (nth i l da) (nth i r db).
Proof.
  revert r i. induction l; destruct r, i; cbn; intros; try lia; auto. apply IHl; lia.
Qed.

Lemma zipw_flip {A B C} (f : A -> B -> C) l r : zipw f l r = zipw (fun y x => f x y) r l.
Proof. revert r. induction l; destruct r; cbn; auto. now rewrite IHl. Qed.

Lemma zipw_map_l {A A' B C} (f : A' -> B -> C) (g : A -> A') l r :
  zipw f (map g l) r = zipw (fun x y => f (g x) y) l r.
Proof. revert r. induction l; destruct r; cbn; auto. now rewrite IHl. Qed.

Lemma zipw_map_r {A B B' C} (f : A -> B' -> C) (g : B -> B') l r :
  zipw f l (map g r) = zipw (fun x y => f x (g y)) l r.
Proof. revert r. induction l; destruct r; cbn; auto. now rewrite IHl. Qed.

Lemma map_zipw {A B C D} (g : C -> D) (f : A -> B -> C) l r :
  map g (zipw f l r) = zipw (fun x y => g (f x y)) l r.
Proof. revert r. induction l; destruct r; cbn; auto. now rewrite IHl. Qed.

Lemma zipw_ext {A B C} (f g : A -> B -> C) l r :
  (forall x y, f x y = g x y) -> zipw f l r = zipw g l r.
Proof. intros H. revert r. induction l; destruct r; cbn; auto. now rewrite H, IHl. Qed.

Lemma skipn_length' {A} n (l : list A) : length (skipn n l) = length l - n.
Proof. apply skipn_length. Qed.

Lemma nth_ext_eq {A} (l r : list A) d :
  length l = length r -> (forall i, i < length l -> nth i l d = nth i r d) -> l = r.
Proof. intros. eapply nth_ext; eauto. Qed.

Lemma split_list {A} n (l : list A) : n <= length l ->
  exists l1 l2, l = l1 ++ l2 /\ length l1 = n /\ length l2 = length l - n
                /\ firstn n l = l1 /\ skipn n l = l2.
Proof.
  intros H. exists (firstn n l), (skipn n l). repeat split.
  - symmetry. apply firstn_skipn.
  - apply firstn_length_le. lia.
  - apply skipn_length.
Qed.

Lemma slice_to_app {A} n (l1 l2 : list A) : length l1 = n -> slice_to (l1 ++ l2) n = Ok l1.
Proof.
  intros <-. unfold slice_to. rewrite app_length.
  replace (length l1 <=? length l1 + length l2) with true by (symmetry; apply Nat.leb_le; lia).
  now rewrite firstn_app, Nat.sub_diag, firstn_all, firstn_O, app_nil_r.
Qed.

Lemma slice_from_app {A} n (l1 l2 : list A) : length l1 = n -> slice_from (l1 ++ l2) n = Ok l2.
Proof.
  intros <-. unfold slice_from. rewrite app_length.
  replace (length l1 <=? length l1 + length l2) with true by (symmetry; apply Nat.leb_le; lia).
  now rewrite skipn_app, Nat.sub_diag, skipn_all.
Qed.

Lemma last_opt_app {A} (l : list A) x : last_opt (l ++ [x]) = Some x.
Proof. induction l; cbn; auto. destruct (l ++ [x]) eqn:E; [destruct l; discriminate|]. auto. Qed.

Lemma last_opt_nonempty {A} (l : list A) : l <> [] -> exists x, last_opt l = Some x.
Proof.
  intros H. destruct (exists_last H) as [l' [x ->]]. exists x. apply last_opt_app.
Qed.

(** ** Sums of lists *)
Section Sums.
  Context {K : field}.
  Add Field KfieldS : (f_theory K).

  Definition msum {M : module K} (l : list M) : M := fold_right madd m0 l.

  Lemma msum_app {M : module K} (l r : list M) : msum (l ++ r) = msum l +m msum r.
  Proof.
    induction l; cbn.
    - now rewrite madd_0_l.
    - fold (msum (l ++ r)). rewrite IHl. apply madd_assoc.
  Qed.

  Lemma msum_fold_left {M : module K} (l : list M) a : fold_left madd l a = a +m msum l.
  Proof.
    revert a. induction l; intros b; cbn.
    - now rewrite madd_0_r.
    - rewrite IHl. symmetry. apply madd_assoc.
  Qed.

  Lemma msum_scale {M : module K} x (l : list M) : msum (map (mscale x) l) = x *m msum l.
  Proof.
    induction l; cbn.
    - now rewrite mscale_0_r.
    - fold (msum (map (mscale x) l)). now rewrite IHl, mscale_add_r.
  Qed.

  Lemma big_ext {M : module K} n (F G : nat -> M) : (forall i, i < n -> F i = G i) -> big n F = big n G.
  Proof. induction n; cbn; intros H; auto. rewrite IHn by auto. rewrite H by lia. auto. Qed.

  Lemma big_S_l {M : module K} n (F : nat -> M) : big (S n) F = F 0 +m big n (fun i => F (S i)).
  Proof.
    induction n; cbn.
    - now rewrite madd_0_l, madd_0_r.
    - cbn in IHn. rewrite IHn. symmetry. apply madd_assoc.
  Qed.

  Lemma msum_big {M : module K} (l : list M) : msum l = big (length l) (at_ l).
  Proof.
    induction l; [reflexivity|]. cbn [length]. rewrite big_S_l. cbn. fold (msum l). now rewrite IHl.
  Qed.

  Lemma big_add {M : module K} n (F G : nat -> M) : big n (fun i => F i +m G i) = big n F +m big n G.
  Proof.
    induction n; cbn.
    - now rewrite madd_0_l.
    - rewrite IHn. module_norm; ring.
  Qed.

  Lemma big_scale {M : module K} n x (F : nat -> M) : big n (fun i => x *m F i) = x *m big n F.
  Proof.
    induction n; cbn.
    - now rewrite mscale_0_r.
    - now rewrite IHn, mscale_add_r.
  Qed.

  Lemma big_0 {M : module K} n : big n (fun _ => m0) = (m0 : M).
  Proof. induction n; cbn; auto. now rewrite IHn, madd_0_l. Qed.

  Lemma fbig_big n (F : nat -> K) : fbig n F = big (M := fmod K) n F.
  Proof. induction n; cbn; auto. now rewrite IHn. Qed.

  Lemma fbig_ext n (F G : nat -> K) : (forall i, i < n -> F i = G i) -> fbig n F = fbig n G.
  Proof. induction n; cbn; intros H; auto. rewrite IHn by auto. rewrite H by lia. auto. Qed.

  Lemma fbig_S_l n (F : nat -> K) : fbig (S n) F = F 0 +f fbig n (fun i => F (S i)).
  Proof. induction n; cbn; [ring|]. cbn in IHn. rewrite IHn. ring. Qed.

  Lemma fbig_scale n x (F : nat -> K) : fbig n (fun i => x *f F i) = x *f fbig n F.
  Proof. induction n; cbn; [ring|]. rewrite IHn. ring. Qed.

  Lemma fbig_add n (F G : nat -> K) : fbig n (fun i => F i +f G i) = fbig n F +f fbig n G.
  Proof. induction n; cbn; [ring|]. rewrite IHn. ring. Qed.

  Lemma fbig_0 n : fbig n (fun _ => f0) = (f0 : K).
  Proof. induction n; cbn; auto. rewrite IHn. ring. Qed.

  Lemma big_fscale {M : module K} n (F : nat -> K) (a : M) : big n (fun i => F i *m a) = fbig n F *m a.
  Proof.
    induction n; cbn.
    - now rewrite mscale_0_l.
    - now rewrite IHn, mscale_add_l.
  Qed.

  Lemma fbig_split n m (F : nat -> K) : fbig (n + m) F = fbig n F +f fbig m (fun i => F (n + i)).
  Proof.
    induction m; cbn.
    - rewrite Nat.add_0_r. ring.
    - rewrite Nat.add_succ_r. cbn. rewrite IHm. ring.
  Qed.

  Lemma big_split {M : module K} n m (F : nat -> M) : big (n + m) F = big n F +m big m (fun i => F (n + i)).
  Proof.
    induction m; cbn.
    - rewrite Nat.add_0_r. now rewrite madd_0_r.
    - rewrite Nat.add_succ_r. cbn. rewrite IHm. symmetry. apply madd_assoc.
  Qed.

  Lemma fbig_swap n m (F : nat -> nat -> K) :
    fbig n (fun i => fbig m (fun j => F i j)) = fbig m (fun j => fbig n (fun i => F i j)).
  Proof.
    induction n; cbn.
    - now rewrite fbig_0.
    - rewrite IHn, fbig_add. reflexivity.
  Qed.

  Lemma big_swap {M : module K} n m (F : nat -> nat -> M) :
    big n (fun i => big m (fun j => F i j)) = big m (fun j => big n (fun i => F i j)).
  Proof.
    induction n; cbn.
    - now rewrite big_0.
    - rewrite IHn, big_add. reflexivity.
  Qed.
End Sums.

(** ** Bilinear maps and dot products *)
Section Dot.
  Context {K : field}.
  Add Field KfieldD : (f_theory K).

  Record bilinear {A B C : module K} (f : A -> B -> C) : Prop := {
    bil_add_l : forall a a' b, f (a +m a') b = f a b +m f a' b;
    bil_add_r : forall a b b', f a (b +m b') = f a b +m f a b';
    bil_scale_l : forall x a b, f (x *m a) b = x *m f a b;
    bil_scale_r : forall x a b, f a (x *m b) = x *m f a b
  }.

  Definition dot {A B C : module K} (f : A -> B -> C) (l : list A) (r : list B) : C :=
    msum (zipw f l r).

  Lemma dot_nil {A B C : module K} (f : A -> B -> C) : dot f [] [] = m0.
  Proof. reflexivity. Qed.

  Lemma dot_cons {A B C : module K} (f : A -> B -> C) x l y r :
    dot f (x :: l) (y :: r) = f x y +m dot f l r.
  Proof. reflexivity. Qed.

  Lemma dot_single {A B C : module K} (f : A -> B -> C) x y : dot f [x] [y] = f x y.
  Proof. unfold dot. cbn. apply madd_0_r. Qed.

  Lemma dot_app {A B C : module K} (f : A -> B -> C) l1 l2 r1 r2 :
    length l1 = length r1 -> dot f (l1 ++ l2) (r1 ++ r2) = dot f l1 r1 +m dot f l2 r2.
  Proof. intros. unfold dot. now rewrite zipw_app, msum_app. Qed.

  Lemma dot_flip {A B C : module K} (f : A -> B -> C) l r : dot f l r = dot (fun y x => f x y) r l.
  Proof. unfold dot. now rewrite zipw_flip. Qed.

  Lemma bilinear_flip {A B C : module K} (f : A -> B -> C) :
    bilinear f -> bilinear (fun y x => f x y).
  Proof. intros [? ? ? ?]. split; auto. Qed.

  Lemma dot_big {A B C : module K} (f : A -> B -> C) l r :
    length l = length r -> dot f l r = big (length l) (fun i => f (at_ l i) (at_ r i)).
  Proof.
    intros H. unfold dot. rewrite msum_big, zipw_length_eq by auto.
    apply big_ext. intros i Hi. unfold at_. apply zipw_nth; lia.
  Qed.

  Section Bil.
    Context {A B C : module K} (f : A -> B -> C) (Hf : bilinear f).

    Lemma bil_0_l b : f m0 b = m0.
    Proof. rewrite <- (mscale_0_l K A m0), (bil_scale_l _ Hf). apply mscale_0_l. Qed.
    Lemma bil_0_r a : f a m0 = m0.
    Proof. rewrite <- (mscale_0_l K B m0), (bil_scale_r _ Hf). apply mscale_0_l. Qed.
    Lemma bil_opp_l a b : f (mopp a) b = mopp (f a b).
    Proof. now rewrite !mopp_scale, (bil_scale_l _ Hf). Qed.
    Lemma bil_opp_r a b : f a (mopp b) = mopp (f a b).
    Proof. now rewrite !mopp_scale, (bil_scale_r _ Hf). Qed.
    Lemma bil_sub_l a a' b : f (a -m a') b = f a b -m f a' b.
    Proof. unfold msub. now rewrite (bil_add_l _ Hf), bil_opp_l. Qed.
    Lemma bil_sub_r a b b' : f a (b -m b') = f a b -m f a b'.
    Proof. unfold msub. now rewrite (bil_add_r _ Hf), bil_opp_r. Qed.

    Lemma dot_add_l l l' r : length l = length l' -> length l = length r ->
      dot f (zipw madd l l') r = dot f l r +m dot f l' r.
    Proof.
      revert l' r. induction l; destruct l', r; cbn [zipw length]; intros; try discriminate.
      - unfold dot; cbn. now rewrite madd_0_l.
      - rewrite !dot_cons, IHl by lia. rewrite (bil_add_l _ Hf). module_norm; ring.
    Qed.

    Lemma dot_scale_l x l r : dot f (map (mscale x) l) r = x *m dot f l r.
    Proof.
      unfold dot. rewrite zipw_map_l, <- msum_scale, map_zipw. f_equal. apply zipw_ext.
      intros. apply (bil_scale_l _ Hf).
    Qed.

    Lemma dot_scale_r x l r : dot f l (map (mscale x) r) = x *m dot f l r.
    Proof.
      unfold dot. rewrite zipw_map_r, <- msum_scale, map_zipw. f_equal. apply zipw_ext.
      intros. apply (bil_scale_r _ Hf).
    Qed.

    Lemma dot_add_r l r r' : length r = length r' -> length l = length r ->
      dot f l (zipw madd r r') = dot f l r +m dot f l r'.
    Proof.
      revert r r'. induction l; destruct r, r'; cbn [zipw length]; intros; try discriminate.
      - unfold dot; cbn. now rewrite madd_0_l.
      - rewrite !dot_cons, IHl by lia. rewrite (bil_add_r _ Hf). module_norm; ring.
    Qed.
  End Bil.

  (** The folding identity used by every round. *)
  Definition vfold {M : module K} (x : K) (l1 l2 : list M) : list M :=
    zipw (fun a b => x *m b +m a) l1 l2.

  Lemma vfold_length {M : module K} x (l1 l2 : list M) :
    length l1 = length l2 -> length (vfold x l1 l2) = length l1.
  Proof. apply zipw_length_eq. Qed.

  Lemma vfold_alt {M : module K} x (l1 l2 : list M) :
    vfold x l1 l2 = zipw madd (map (mscale x) l2) l1.
  Proof.
    unfold vfold. rewrite zipw_map_l, zipw_flip. reflexivity.
  Qed.

  Lemma dot_fold {A B C : module K} (f : A -> B -> C) (Hf : bilinear f) x y l1 l2 r1 r2 :
    x *f y = f1 ->
    length l1 = length l2 -> length r1 = length r2 -> length l1 = length r1 ->
    dot f (vfold x l1 l2) (vfold y r1 r2) =
      dot f (l1 ++ l2) (r1 ++ r2) +m y *m dot f l1 r2 +m x *m dot f l2 r1.
  Proof.
    intros Hxy H1 H2 H3.
    rewrite dot_app by auto.
    rewrite !vfold_alt.
    rewrite (dot_add_l _ Hf), !(dot_add_r _ Hf), !(dot_scale_l _ Hf), !(dot_scale_r _ Hf)
      by (rewrite ?zipw_length, ?map_length; lia).
    module_norm; try ring.
    all: transitivity (x *f y); [ring | rewrite Hxy; ring].
  Qed.
End Dot.
Arguments msum : simpl never.
Arguments dot : simpl never.
Arguments vfold : simpl never.

Lemma msum_cons {K} {M : module K} (x : M) l : msum (x :: l) = x +m msum l.
Proof. reflexivity. Qed.
Lemma msum_nil {K} {M : module K} : msum [] = (m0 : M).
Proof. reflexivity. Qed.

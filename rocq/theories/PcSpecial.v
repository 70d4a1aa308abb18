(** Interpolation, for the extractor of C76. *)
Require Import List Arith Lia Bool Field.
Import ListNotations.
Require Import Verif.Outcome Verif.Algebra Verif.Rust Verif.Spec Verif.ListFacts Verif.RustFacts Verif.InnerProducts Verif.InnerProductFacts
  Verif.CommitFacts Verif.GipaFacts Verif.Poly Verif.PolyFacts Verif.PolyCommit Verif.PcFacts Verif.RootFacts Verif.KeyFacts Verif.PropsTipa.

Section Interp.
  Context {K : field}.
  Add Field KfInterp : (f_theory K).

  (** coefficients of c + (X - x) q *)
  Fixpoint add_root (x c : K) (q : list K) : list K :=
    match q with
    | [] => [c]
    | a :: q => (c -f x *f a) :: add_root x a q
    end.
  Lemma add_root_spec x q : forall c z, poly_evaluate (add_root x c q) z = c +f (z -f x) *f poly_evaluate q z.
  Proof. induction q as [|a q IH]; intros c z; cbn [add_root poly_evaluate fold_right]; [ring|]. unfold poly_evaluate in IH. rewrite IH. ring. Qed.
  Lemma add_root_length x q : forall c, length (add_root x c q) = S (length q).
  Proof. induction q; intros c; cbn [add_root length]; auto. Qed.

  (** coefficients of the polynomial with values vs at the points xs (divided differences) *)
  Fixpoint interpolate (xs vs : list K) : list K :=
    match xs, vs with
    | x :: xs, v :: vs => add_root x v (interpolate xs (zipw (fun x' v' => (v' -f v) *f finv (x' -f x)) xs vs))
    | _, _ => []
    end.
  Lemma interpolate_length xs : forall vs, length vs = length xs -> length (interpolate xs vs) = length xs.
  Proof.
    induction xs as [|x xs IH]; intros [|v vs] H; try discriminate; [reflexivity|]. cbn [interpolate]. rewrite add_root_length, IH; [reflexivity|].
    injection H as H. rewrite zipw_length_eq; congruence.
  Qed.
  Lemma interpolate_spec xs : forall vs, NoDup xs -> length vs = length xs ->
    forall i, i < length xs -> poly_evaluate (interpolate xs vs) (fat xs i) = fat vs i.
  Proof.
    induction xs as [|x xs IH]; intros [|v vs] Hnd H i Hi; try discriminate; [cbn in Hi; lia|].
    inversion Hnd as [|? ? Hx Hnd']; subst. injection H as H. cbn [interpolate]. rewrite add_root_spec. destruct i as [|i].
    - unfold fat. cbn [nth]. ring.
    - cbn [length] in Hi. unfold fat in *. cbn [nth]. rewrite IH; auto; [|rewrite zipw_length_eq; congruence|lia].
      rewrite (zipw_nth _ _ _ i f0 f0 f0) by lia. field. intros H0. apply Hx. apply (proj1 (fsub_eq0 _ _ _)) in H0. rewrite <- H0. apply nth_In. lia.
  Qed.

  (** rows of the bivariate polynomial with p(x_k, Y) = sum_j (row k of rows)_j Y^j *)
  Definition interpolate_rows (n m : nat) (xs : list K) (rows : list (list K)) : list (list K) :=
    map (fun i => map (fun j => fat (interpolate xs (map (fun row => fat row j) rows)) i) (seq 0 m)) (seq 0 n).
  (** the coefficients of p(x, Y) *)
  Definition at_x (p : list (list K)) (m : nat) (x : K) : list K :=
    map (fun j => fbig (length p) (fun i => fpow x i *f fat (nth i p []) j)) (seq 0 m).

  Definition rectangle (n m : nat) (p : list (list K)) : Prop := length p = n /\ Forall (fun row => length row = m) p.

  Lemma fat_map_seq (F : nat -> K) m j : j < m -> fat (map F (seq 0 m)) j = F j.
  Proof. intros H. unfold fat. rewrite (nth_indep _ f0 (F 0)) by (now rewrite map_length, seq_length). now rewrite map_nth, seq_nth. Qed.
  Lemma fat_map_seq_out (F : nat -> K) m j : m <= j -> fat (map F (seq 0 m)) j = f0.
  Proof. intros H. unfold fat. apply nth_overflow. now rewrite map_length, seq_length. Qed.
  Lemma nth_map_seq (F : nat -> list K) n i : i < n -> nth i (map F (seq 0 n)) [] = F i.
  Proof. intros H. rewrite (nth_indep _ [] (F 0)) by (now rewrite map_length, seq_length). now rewrite map_nth, seq_nth. Qed.

  Lemma interpolate_rows_rect n m xs rows : rectangle n m (interpolate_rows n m xs rows).
  Proof.
    unfold rectangle, interpolate_rows. rewrite map_length, seq_length. split; [reflexivity|]. apply Forall_forall. intros r Hr.
    apply in_map_iff in Hr as [i [<- _]]. now rewrite map_length, seq_length.
  Qed.
  Lemma rect_nth n m p i : rectangle n m p -> i < n -> length (nth i p []) = m.
  Proof. intros [H1 H2] Hi. rewrite Forall_forall in H2. apply H2, nth_In. lia. Qed.
  Lemma at_x_length p m x : length (at_x p m x) = m.
  Proof. unfold at_x. now rewrite map_length, seq_length. Qed.

  Lemma at_x_interpolate n m xs rows k : NoDup xs -> length xs = n -> rectangle n m rows -> k < n ->
    at_x (interpolate_rows n m xs rows) m (fat xs k) = nth k rows [].
  Proof.
    intros Hnd Hx HR Hk. apply (nth_ext _ _ f0 f0); [rewrite at_x_length; symmetry; now apply (rect_nth n m)|].
    rewrite at_x_length. intros j Hj. change (fat (at_x (interpolate_rows n m xs rows) m (fat xs k)) j = fat (nth k rows []) j).
    unfold at_x. rewrite fat_map_seq by exact Hj. destruct (interpolate_rows_rect n m xs rows) as [-> _].
    transitivity (poly_evaluate (interpolate xs (map (fun row => fat row j) rows)) (fat xs k)).
    - rewrite ev_poly_at. unfold poly_at. rewrite interpolate_length by (rewrite map_length; destruct HR; congruence). rewrite Hx.
      apply fbig_ext. intros i Hi. unfold interpolate_rows. rewrite nth_map_seq by exact Hi. rewrite fat_map_seq by exact Hj. ring.
    - rewrite interpolate_spec; auto; [|rewrite map_length; destruct HR; congruence|congruence]. unfold fat at 1.
      rewrite (nth_indep _ f0 ((fun row => fat row j) [])) by (rewrite map_length; destruct HR; congruence). now rewrite (map_nth (fun row => fat row j)).
  Qed.

  Lemma at_x_value n m p x y : rectangle n m p -> poly_evaluate (at_x p m x) y = bipoly_evaluate p (x, y).
  Proof.
    intros [Hl HR]. rewrite bipoly_evaluate_rows. unfold at_x.
    rewrite <- (fbig_ext (length p) (fun i => fat (map (fpow x) (seq 0 (length p))) i *f poly_evaluate (nth i p []) y)).
    2:{ intros i Hi. now rewrite fat_map_seq. }
    rewrite <- (ev_y_eval m (length p) (map (fpow x) (seq 0 (length p))) p y eq_refl HR). f_equal. apply map_ext. intros j.
    apply fbig_ext. intros i Hi. now rewrite fat_map_seq.
  Qed.

  Lemma at_x_commit {G : module K} n m (ck : list G) p x : length ck = m -> rectangle n m p ->
    mev (map (fun row => dot smul ck (row : list (fmod K))) p) x = dot smul ck (at_x p m x : list (fmod K)).
  Proof.
    intros Hc HR. rewrite mev_big, map_length. rewrite dot_big by (rewrite at_x_length; exact Hc). rewrite Hc. destruct HR as [Hl HR].
    rewrite Forall_forall in HR.
    transitivity (big (length p) (fun i => big m (fun j => (fpow x i *f fat (nth i p []) j) *m at_ ck j))).
    - apply big_ext. intros i Hi. unfold at_ at 1.
      rewrite (nth_indep _ m0 ((fun row => dot smul ck (row : list (fmod K))) [])) by (now rewrite map_length).
      rewrite (map_nth (fun row => dot smul ck (row : list (fmod K)))).
      rewrite dot_big by (transitivity m; [exact Hc|symmetry; apply HR, nth_In; exact Hi]). rewrite Hc, <- big_scale. apply big_ext. intros j Hj.
      unfold smul. rewrite <- mscale_mul. reflexivity.
    - rewrite big_swap. apply big_ext. intros j Hj. unfold smul. rewrite big_fscale. f_equal. symmetry. unfold at_x.
      exact (fat_map_seq (fun j => fbig (length p) (fun i => fpow x i *f fat (nth i p []) j)) m j Hj).
  Qed.

  Lemma msub_zero {G : module K} (a b : G) : a -m b = m0 -> a = b.
  Proof.
    intros H. rewrite <- (madd_0_l _ _ b), <- H. module_norm; ring.
  Qed.
  Lemma rows_unique {G : module K} (xs : list K) (u v : list G) : NoDup xs -> length u = length xs -> length v = length xs ->
    (forall x, In x xs -> mev u x = mev v x) -> u = v.
  Proof.
    intros Hnd Hu Hv H. set (d := map (fun i => at_ u i -m at_ v i) (seq 0 (length xs))).
    assert (Hd : forall x, mev u x = mev d x +m mev v x).
    { intros x. rewrite !mev_big. unfold d. rewrite map_length, seq_length, Hu, Hv. rewrite <- big_add. apply big_ext. intros i Hi.
      rewrite (at_map_seq (fun i => at_ u i -m at_ v i)) by exact Hi. generalize (at_ u i) (at_ v i). intros a b. module_norm; ring. }
    assert (Hz : Forall (fun c => c = m0) d).
    { apply (roots_zero xs d Hnd); [unfold d; now rewrite map_length, seq_length|]. intros x Hx. specialize (H x Hx). rewrite Hd in H. rewrite <- (madd_0_l _ _ (mev v x)) in H at 2.
      rewrite !(madd_comm _ _ _ (mev v x)) in H. exact (madd_cancel_l _ _ _ _ _ H). }
    apply (nth_ext _ _ m0 m0); [congruence|]. intros i Hi. rewrite Forall_forall in Hz.
    apply msub_zero. apply Hz. unfold d. apply (in_map (fun i => at_ u i -m at_ v i)). apply in_seq. lia.
  Qed.
End Interp.

(** Facts about the Rust library operations of [Rust.v]. *)
Require Import List Arith NArith Lia Bool Field.
Import ListNotations.
Require Import Verif.Outcome Verif.Algebra Verif.Rust Verif.Spec Verif.ListFacts.

(** ** Results *)
Lemma rbind_ok {A B} (x : res A) (f : A -> res B) b :
  rbind x f = Ok b -> exists a, x = Ok a /\ f a = Ok b.
Proof. destruct x; cbn; intros; try discriminate. eauto. Qed.

Lemma rassert_ok b u : rassert b = Ok u -> b = true.
Proof. destruct b; [auto|discriminate]. Qed.

Lemma runwrap_ok {A} (o : option A) a : runwrap o = Ok a -> o = Some a.
Proof. destruct o; cbn; congruence. Qed.

Lemma rmapM_ok_map {A B} (f : A -> res B) (g : A -> B) l :
  (forall x, In x l -> f x = Ok (g x)) -> rmapM f l = Ok (map g l).
Proof.
  induction l; cbn; intros H; auto. rewrite H by auto. cbn. rewrite IHl by auto. reflexivity.
Qed.

Lemma rmapM_ok_length {A B} (f : A -> res B) l r : rmapM f l = Ok r -> length r = length l.
Proof.
  revert r. induction l; cbn; intros r H.
  - injection H as <-. reflexivity.
  - apply rbind_ok in H as [y [_ H]]. apply rbind_ok in H as [ys [H1 H2]].
    injection H2 as <-. cbn. f_equal. auto.
Qed.

Lemma rand_then_true a b : rand_then a b = Ok true <-> a = Ok true /\ b = Ok true.
Proof.
  unfold rand_then. destruct a as [[]| | |]; cbn; split; intros H; try tauto; try discriminate;
    destruct H; discriminate.
Qed.

Ltac rinv H :=
  repeat match type of H with
  | rbind _ _ = Ok _ => let a := fresh "v" in let E := fresh "E" in
                        apply rbind_ok in H as [a [E H]]
  end.

(** ** Powers of two *)
Lemma pos_ones_pos p : 1 <= pos_ones p.
Proof. induction p; cbn; lia. Qed.

Lemma pos_ones_1 p : pos_ones p = 1 -> exists k, Npos p = N.pow 2 (N.of_nat k).
Proof.
  induction p; cbn; intros H.
  - pose proof (pos_ones_pos p). lia.
  - destruct (IHp H) as [k Hk]. exists (S k).
    rewrite Nat2N.inj_succ, N.pow_succ_r', <- Hk. lia.
  - exists 0. reflexivity.
Qed.

Lemma pos_ones_pow2 k p : Npos p = N.pow 2 (N.of_nat k) -> pos_ones p = 1.
Proof.
  revert p. induction k; intros p H.
  - cbn in H. injection H as ->. reflexivity.
  - rewrite Nat2N.inj_succ, N.pow_succ_r' in H.
    destruct p; cbn [pos_ones].
    + lia.
    + apply IHk. lia.
    + exfalso. assert (N.pow 2 (N.of_nat k) <> 0%N) by (apply N.pow_nonzero; lia). lia.
Qed.

Lemma of_nat_pow2 k : N.of_nat (2 ^ k) = N.pow 2 (N.of_nat k).
Proof. induction k; [reflexivity|]. rewrite Nat2N.inj_succ, N.pow_succ_r', <- IHk. cbn [Nat.pow]. lia. Qed.

Lemma count_ones_pow2 n : count_ones n = 1 <-> exists k, n = 2 ^ k.
Proof.
  unfold count_ones. split.
  - destruct (N.of_nat n) eqn:E; [discriminate|]. intros H.
    apply pos_ones_1 in H as [k Hk]. exists k. apply Nat2N.inj. rewrite of_nat_pow2. congruence.
  - intros [k ->]. destruct (N.of_nat (2 ^ k)) eqn:E.
    + exfalso. assert (2 ^ k <> 0) by (apply Nat.pow_nonzero; lia). lia.
    + apply (pos_ones_pow2 k). now rewrite <- of_nat_pow2.
Qed.

Lemma is_power_of_two_spec n : is_power_of_two n = true <-> exists k, n = 2 ^ k.
Proof. unfold is_power_of_two. rewrite Nat.eqb_eq. apply count_ones_pow2. Qed.

Lemma is_power_of_two_pow2 k : is_power_of_two (2 ^ k) = true.
Proof. apply is_power_of_two_spec. eauto. Qed.

Lemma pow2_pos k : 0 < 2 ^ k.
Proof. assert (2 ^ k <> 0) by (apply Nat.pow_nonzero; lia). lia. Qed.

Lemma pow2_half k : 2 ^ S k / 2 = 2 ^ k.
Proof. cbn [Nat.pow]. rewrite Nat.mul_comm. apply Nat.div_mul. lia. Qed.

Lemma pow2_inj a b : 2 ^ a = 2 ^ b -> a = b.
Proof. intros H. apply (Nat.pow_inj_r 2); auto. Qed.

(** next_power_of_two is the least power of two above its argument *)
Lemma next_pow2_from_spec fuel : forall k n,
  n <= 2 ^ (k + fuel) -> (forall j, j < k -> 2 ^ j < n) ->
  exists j, next_pow2_from fuel (2 ^ k) n = 2 ^ j /\ n <= 2 ^ j /\ forall i, i < j -> 2 ^ i < n.
Proof.
  induction fuel; cbn [next_pow2_from]; intros k n H Hj.
  - exists k. rewrite Nat.add_0_r in H. auto.
  - destruct (Nat.leb_spec n (2 ^ k)).
    + exists k. auto.
    + change (2 * 2 ^ k) with (2 ^ S k). apply IHfuel.
      * now rewrite Nat.add_succ_comm.
      * intros j Hlt. destruct (Nat.eq_dec j k) as [->|]; [auto|]. apply Hj. lia.
Qed.

Lemma next_power_of_two_spec n :
  exists j, next_power_of_two n = 2 ^ j /\ n <= 2 ^ j /\ forall i, i < j -> 2 ^ i < n.
Proof.
  unfold next_power_of_two. apply (next_pow2_from_spec n 0 n); [|lia].
  cbn. apply Nat.lt_le_incl, Nat.pow_gt_lin_r. lia.
Qed.

(** ** Chunks *)
Lemma chunks_fuel_nil {A} fuel size : @chunks_fuel A fuel size [] = [].
Proof. destruct fuel; reflexivity. Qed.

Lemma chunks_ok {A} size (l : list A) : 0 < size -> chunks size l = Ok (chunks_fuel (length l) size l).
Proof. unfold chunks. destruct (Nat.eqb_spec size 0); [lia|auto]. Qed.

(** Chunks of two lists of the same length have the same lengths, pairwise, and cover the lists. *)
Section ChunkPairs.
  Context {A B C : Type} (f : A -> B -> C).
  Lemma chunks_pairs fuel size (l : list A) (r : list B) :
    0 < size -> length l = length r -> length l <= fuel ->
    concat (map (fun c => zipw f (fst c) (snd c))
                (combine (chunks_fuel fuel size l) (chunks_fuel fuel size r))) = zipw f l r
    /\ Forall (fun c => length (fst c) = length (snd c))
              (combine (chunks_fuel fuel size l) (chunks_fuel fuel size r)).
  Proof.
    intros Hs. revert l r. induction fuel; intros l r Hl Hf.
    - destruct l; [|cbn in Hf; lia]. cbn. auto.
    - destruct l as [|x l], r as [|y r]; try discriminate.
      + cbn. auto.
      + destruct size as [|size]; [lia|].
        assert (Hlen : length (skipn (S size) (x :: l)) = length (skipn (S size) (y :: r))).
        { rewrite !skipn_length. lia. }
        destruct (IHfuel _ _ Hlen) as [H1 H2].
        { rewrite skipn_length. cbn [length] in *. lia. }
        cbn [chunks_fuel combine map concat fst snd].
        rewrite H1. split.
        * rewrite <- zipw_app.
          -- now rewrite !firstn_skipn.
          -- rewrite !firstn_length. lia.
        * constructor; [|exact H2]. cbn [fst snd]. rewrite !firstn_length. lia.
  Qed.
End ChunkPairs.

(** ** Parallel reductions *)
Lemma fold_left_op_r {A} (op : A -> A -> A) e (assoc : forall a b c, op a (op b c) = op (op a b) c)
    (id_l : forall a, op e a = a) (id_r : forall a, op a e = a) l a :
  fold_left op l a = op a (fold_right op e l).
Proof.
  revert a. induction l; cbn; intros x; [now rewrite id_r|]. now rewrite IHl, assoc.
Qed.

Lemma fold_right_op_app {A} (op : A -> A -> A) e (assoc : forall a b c, op a (op b c) = op (op a b) c)
    (id_l : forall a, op e a = a) l r :
  fold_right op e (l ++ r) = op (fold_right op e l) (fold_right op e r).
Proof. induction l; cbn; [now rewrite id_l|]. now rewrite IHl, assoc. Qed.

Lemma par_reduce_monoid {A} (op : A -> A -> A) e (assoc : forall a b c, op a (op b c) = op (op a b) c)
    (id_l : forall a, op e a = a) (id_r : forall a, op a e = a) t l :
  par_reduce op e t l = fold_right op e l.
Proof.
  revert l. induction t; cbn; intros x.
  - rewrite (fold_left_op_r op e); auto.
  - rewrite IHt1, IHt2. rewrite <- (fold_right_op_app op e); auto. now rewrite firstn_skipn.
Qed.

Lemma par_reduce_rel {A B} (Rel : A -> B -> Prop) op op' e e' :
  Rel e e' -> (forall x y a b, Rel x a -> Rel y b -> Rel (op x y) (op' a b)) ->
  forall t l l', Forall2 Rel l l' -> Rel (par_reduce op e t l) (par_reduce op' e' t l').
Proof.
  intros He Hop t. induction t; cbn; intros l l' H.
  - revert e e' He. induction H; cbn; auto.
  - apply Hop; [apply IHt1|apply IHt2].
    + clear -H. revert k. induction H; intros k; destruct k; cbn; constructor; auto.
    + clear -H. revert k. induction H; intros [|k]; cbn; auto; constructor; auto.
Qed.

Lemma par_reduce_msum {K} {M : module K} t (l : list M) : par_reduce madd m0 t l = msum l.
Proof. apply par_reduce_monoid; intros; [apply madd_assoc|apply madd_0_l|apply madd_0_r]. Qed.

Lemma par_reduce_fmul {K : field} t (l : list K) : par_reduce fmul f1 t l = fold_right fmul f1 l.
Proof.
  pose proof (F_R (f_theory K)) as T.
  apply par_reduce_monoid; intros.
  - apply (Rmul_assoc T).
  - apply (Rmul_1_l T).
  - rewrite (Rmul_comm T). apply (Rmul_1_l T).
Qed.

(** ** resize, step_by2, padding *)
Lemma resize_length {A} n (d : A) l : length (resize n d l) = n.
Proof. unfold resize. rewrite app_length, firstn_length, repeat_length. lia. Qed.

Lemma resize_nth {A} n (d : A) l i : i < n -> nth i (resize n d l) d = nth i l d.
Proof.
  intros Hi. unfold resize.
  destruct (Nat.lt_ge_cases i (length l)).
  - rewrite app_nth1 by (rewrite firstn_length; lia).
    rewrite <- (firstn_skipn n l) at 2. rewrite app_nth1; auto. rewrite firstn_length. lia.
  - rewrite app_nth2 by (rewrite firstn_length; lia).
    rewrite nth_repeat, (nth_overflow l); auto.
Qed.

Lemma resize_self {A} n (d : A) l : length l = n -> resize n d l = l.
Proof.
  intros <-. unfold resize. now rewrite firstn_all, Nat.sub_diag, app_nil_r.
Qed.

Lemma chain_take_resize {A} (l : list A) d n : chain_cycle_take l d n = resize n d l.
Proof. reflexivity. Qed.

Lemma index_ok {A} (l : list A) i d : i < length l -> index l i = Ok (nth i l d).
Proof.
  intros H. unfold index. rewrite (nth_error_nth' l d H). reflexivity.
Qed.

Lemma index_panic {A} (l : list A) i : length l <= i -> index l i = Panic.
Proof. intros H. unfold index. apply nth_error_None in H. now rewrite H. Qed.

Lemma index_inv {A} (l : list A) i x d : index l i = Ok x -> i < length l /\ x = nth i l d.
Proof.
  unfold index. intros H. apply runwrap_ok in H. split.
  - apply nth_error_Some. congruence.
  - symmetry. now apply nth_error_nth.
Qed.

Lemma slice_to_ok {A} (l : list A) n x : slice_to l n = Ok x -> n <= length l /\ x = firstn n l.
Proof. unfold slice_to. destruct (Nat.leb_spec n (length l)); [|discriminate]. intros [= <-]. auto. Qed.

Lemma slice_from_ok {A} (l : list A) n x : slice_from l n = Ok x -> n <= length l /\ x = skipn n l.
Proof. unfold slice_from. destruct (Nat.leb_spec n (length l)); [|discriminate]. intros [= <-]. auto. Qed.

Lemma step_by2_nth_aux {A} n (l : list A) d i : length l <= n ->
  nth i (step_by2 l) d = nth (2 * i) l d.
Proof.
  revert l i. induction n; intros l i Hl.
  - destruct l; [|cbn in Hl; lia]. destruct i; reflexivity.
  - destruct l as [|x [|y l]].
    + destruct i; reflexivity.
    + destruct i; cbn; auto. rewrite Nat.add_succ_r. destruct i; reflexivity.
    + destruct i; [reflexivity|]. cbn [step_by2 nth]. rewrite IHn by (cbn in Hl; lia).
      replace (2 * S i) with (S (S (2 * i))) by lia. reflexivity.
Qed.

Lemma step_by2_nth {A} (l : list A) d i : nth i (step_by2 l) d = nth (2 * i) l d.
Proof. now apply (step_by2_nth_aux (length l)). Qed.

Lemma step_by2_length_aux {A} n (l : list A) : length l <= n -> length (step_by2 l) = (length l + 1) / 2.
Proof.
  revert l. induction n; intros l Hl.
  - destruct l; [reflexivity|cbn in Hl; lia].
  - destruct l as [|x [|y l]]; [reflexivity|reflexivity|].
    cbn [step_by2 length]. rewrite IHn by (cbn in Hl; lia).
    replace (S (S (length l)) + 1) with (length l + 1 + 1 * 2) by lia.
    rewrite Nat.div_add by lia. lia.
Qed.

Lemma step_by2_length {A} (l : list A) : length (step_by2 l) = (length l + 1) / 2.
Proof. now apply (step_by2_length_aux (length l)). Qed.

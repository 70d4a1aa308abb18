(** C90: addition, scaling and [Default] of the outputs of the identity commitment.
    C05 speaks about outputs of equal lengths; here the lengths are arbitrary. *)
Require Import List Arith NArith ZArith Lia Bool.
Import ListNotations.
Require Import Verif.Outcome Verif.Algebra Verif.Zp Verif.Rust Verif.InnerProducts Verif.Commitments
  Verif.Spec Verif.ListFacts Verif.PropsBase.

Section Output.
  Context {R : Type} {K : field} (T : module K).
  Notation Out := (identity_output T).
  Implicit Types x y z : Out.

  Lemma out_ext (x y : list T) : length x = length y -> (forall i, i < length x -> at_ x i = at_ y i) -> x = y.
  Proof using. intros H Hn. unfold at_ in Hn. apply (nth_ext _ _ m0 m0); auto. Qed.

  (** Which elements a sum and a multiple have. *)
  Theorem C90_sum_partial (x y : list T) :
    length (cadd (c := Out) x y) = Nat.min (length x) (length y) /\
    forall i, i < Nat.min (length x) (length y) -> at_ (cadd (c := Out) x y) i = at_ x i +m at_ y i.
  Proof using.
    split; [apply zipw_length|]. intros i H. unfold at_. apply zipw_nth; lia.
  Qed.
  Theorem C90_multiple (s : K) (x : list T) :
    length (cscale (c := Out) s x) = length x /\ forall i, i < length x -> at_ (cscale (c := Out) s x) i = s *m at_ x i.
  Proof using.
    split; [apply map_length|]. intros i H. unfold at_. cbn [cscale identity_output].
    rewrite (nth_indep _ m0 (s *m m0)) by (rewrite map_length; auto). apply map_nth.
  Qed.

  (** The laws that hold whatever the lengths. *)
  Theorem C90_laws_partial x y z (s t : K) :
    cadd x y = cadd y x /\ cadd x (cadd y z) = cadd (cadd x y) z /\
    cscale s (cadd x y) = cadd (cscale s x) (cscale s y) /\
    cscale (s +f t) x = cadd (cscale s x) (cscale t x) /\ cscale s (cscale t x) = cscale (s *f t) x /\ cscale f1 x = x.
  Proof using.
    repeat split; cbn [cadd cscale identity_output Out] in *.
    - revert y. induction x as [|a x IH]; intros [|b y]; cbn; auto. f_equal; [apply madd_comm | apply IH].
    - revert y z. induction x as [|a x IH]; intros [|b y] [|c z]; cbn; auto. f_equal; [apply madd_assoc | apply IH].
    - revert y. induction x as [|a x IH]; intros [|b y]; cbn; auto. f_equal; [apply mscale_add_r | apply IH].
    - induction x as [|a x IH]; cbn; auto. f_equal; [apply mscale_add_l | apply IH].
    - rewrite map_map. apply map_ext. intros a. symmetry. apply mscale_mul.
    - rewrite <- (map_id x) at 2. apply map_ext. intros a. apply mscale_1.
  Qed.

  (** [Default] absorbs instead of being neutral: it is neutral for no other value. *)
  Theorem C90_default_refuted x : cadd (c0 (c := Out)) x = c0 /\ cadd x (c0 (c := Out)) = c0 /\
    (cadd x (c0 (c := Out)) = x <-> x = c0).
  Proof using. cbn. destruct x; cbn; repeat split; intros; auto; discriminate. Qed.

  (** The neutral values are the zero vectors that are at least as long. *)
  Theorem C90_neutral_partial x (n : nat) : cadd x (repeat m0 n : Out) = x <-> length (x : list T) <= n.
  Proof using.
    cbn [cadd identity_output ccar] in *. split; intros H.
    - apply (f_equal (@length T)) in H. rewrite zipw_length, repeat_length in H. lia.
    - revert x H. induction n as [|n IH]; intros [|a x] H; cbn in H |- *; auto; try lia.
      f_equal; [apply madd_0_r | apply IH; lia].
  Qed.

  (** Two messages of different lengths: the sum of the commitments is the commitment to the sum of
      the common prefixes.  The rest of the longer message leaves no trace. *)
  Theorem C90_commit_partial (k : list (unitmod K)) (m m' : list T) :
    exists x y, dh_commit (identity (R := R) T) k m = Ok x /\ dh_commit (identity (R := R) T) k m' = Ok y /\
      let n := Nat.min (length m) (length m') in
      dh_commit (identity (R := R) T) k (vadd (firstn n m) (firstn n m')) = Ok (cadd x y).
  Proof using.
    exists m, m'. repeat split. cbv zeta. cbn. f_equal. set (n := Nat.min _ _).
    assert (L : length (firstn n m) = n) by (rewrite firstn_length; subst n; lia).
    assert (L' : length (firstn n m') = n) by (rewrite firstn_length; subst n; lia).
    destruct (C90_sum_partial m m') as [H1 H2]. symmetry. apply out_ext.
    - unfold vadd. rewrite map_length, seq_length, L. exact H1.
    - intros i Hi. assert (Hn : i < n) by (rewrite zipw_length in Hi; exact Hi).
      transitivity (at_ m i +m at_ m' i); [exact (H2 i Hn)|]. unfold vadd, at_.
      set (F := fun j => nth j (firstn n m) m0 +m nth j (firstn n m') m0).
      assert (HF : nth i (map F (seq 0 (length (firstn n m)))) m0 = F i).
      { rewrite (nth_indep _ m0 (F 0)) by (rewrite map_length, seq_length, L; auto). rewrite map_nth, seq_nth by lia. reflexivity. }
      etransitivity; [|symmetry; exact HF]. unfold F.
      assert (Hfn : forall (l : list T), nth i (firstn n l) m0 = nth i l m0).
      { intros l. rewrite <- (firstn_skipn n l) at 2. destruct (Nat.lt_ge_cases i (length (firstn n l))).
        - now rewrite app_nth1.
        - rewrite (nth_overflow (firstn n l)) by auto. rewrite firstn_length in *. rewrite nth_overflow; auto.
          rewrite app_length, skipn_length, firstn_length. lia. }
      now rewrite !Hfn.
  Qed.

  (** Hence different messages with the same commitment sum: anything may be appended to one of them. *)
  Theorem C90_tail_lost_refuted (k : list (unitmod K)) (m m' tail : list T) : length m = length m' ->
    exists x x' y, dh_commit (identity (R := R) T) k m = Ok x /\ dh_commit (identity (R := R) T) k (m ++ tail) = Ok x' /\
      dh_commit (identity (R := R) T) k m' = Ok y /\ (x' = x <-> tail = []) /\ cadd x' y = cadd x y.
  Proof using.
    intros H. exists m, (m ++ tail), m'. repeat split.
    - intros E. apply (f_equal (@length T)) in E. rewrite app_length in E. destruct tail; cbn in E; auto; lia.
    - intros ->. apply app_nil_r.
    - cbn [cadd identity_output]. rewrite <- (app_nil_r m') at 1. rewrite zipw_app by auto. cbn.
      destruct tail; cbn; apply app_nil_r.
  Qed.
End Output.
Print Assumptions C90_sum_partial.
Print Assumptions C90_multiple.
Print Assumptions C90_laws_partial.
Print Assumptions C90_default_refuted.
Print Assumptions C90_neutral_partial.
Print Assumptions C90_commit_partial.
Print Assumptions C90_tail_lost_refuted.

Example C90_example :
  cadd (c := identity_output ZM) (zl [1; 2; 3]%Z) (zl [10; 20]%Z) = zl [11; 22]%Z /\
  cadd (c := identity_output ZM) (zl [1; 2]%Z) (zl [10; 20]%Z) = zl [11; 22]%Z /\
  cadd (c := identity_output ZM) c0 (zl [10; 20]%Z) = [] /\
  cadd (c := identity_output ZM) (zl [0; 0; 0]%Z) (zl [10; 20]%Z) = zl [10; 20]%Z.
Proof. vm_compute. repeat split; reflexivity. Qed.

(** Root counting for polynomials with coefficients in a module (used for C26, C43, C46). *)
Require Import List Arith Lia Bool Field.
Import ListNotations.
Require Import Verif.Outcome Verif.Algebra Verif.Spec Verif.ListFacts Verif.Rust Verif.Poly Verif.PolyFacts.

Section Roots.
  Context {K : field} {M : module K}.
  Add Field KfRoot : (f_theory K).

  (** value at x of sum_i x^i l_i (Horner) *)
  Fixpoint mev (l : list M) (x : K) : M :=
    match l with [] => m0 | c :: l => c +m x *m mev l x end.

  Lemma mev_big l x : mev l x = big (length l) (fun i => fpow x i *m at_ l i).
  Proof.
    induction l; [reflexivity|]. cbn [mev length]. rewrite big_S_l, IHl. unfold at_ at 2. cbn [nth fpow].
    rewrite mscale_1. f_equal. rewrite <- big_scale. apply big_ext. intros i _. rewrite <- mscale_mul. reflexivity.
  Qed.

  (** synthetic division by X - z *)
  Fixpoint mquot (l : list M) (z : K) : list M :=
    match l with
    | [] => []
    | c :: l => match l with [] => [] | _ => mev l z :: mquot l z end
    end.

  Lemma mquot_length l z : length (mquot l z) = length l - 1.
  Proof.
    induction l as [|c l IH]; [reflexivity|]. destruct l; [reflexivity|].
    cbn [mquot length] in *. rewrite IH. lia.
  Qed.

  Lemma mquot_spec l z x : mev l x = (x -f z) *m mev (mquot l z) x +m mev l z.
  Proof.
    induction l as [|c l IH]; [cbn; module_norm; ring|]. destruct l as [|c' l]; [cbn; module_norm; ring|].
    change (mquot (c :: c' :: l) z) with (mev (c' :: l) z :: mquot (c' :: l) z).
    remember (c' :: l) as r. cbn [mev]. rewrite IH at 1.
    generalize (mev (mquot r z) x) (mev r z). intros u v. module_norm; ring.
  Qed.

  Lemma mquot_zero l z : Forall (fun c => c = m0) (mquot l z) -> mev l z = m0 -> Forall (fun c => c = m0) l.
  Proof.
    induction l as [|c l IH]; intros HF H0; [constructor|]. destruct l as [|c' l].
    - constructor; [|constructor]. cbn in H0. rewrite mscale_0_r, madd_0_r in H0. exact H0.
    - change (mquot (c :: c' :: l) z) with (mev (c' :: l) z :: mquot (c' :: l) z) in HF.
      remember (c' :: l) as r. inversion HF as [|? ? H1 H2]; subst x l0.
      specialize (IH H2 H1). constructor; [|exact IH]. cbn [mev] in H0. rewrite H1, mscale_0_r, madd_0_r in H0. exact H0.
  Qed.

  (** a polynomial with at least as many roots as coefficients is zero *)
  Lemma roots_zero : forall (xs : list K) (l : list M), NoDup xs -> length l <= length xs ->
    (forall x, In x xs -> mev l x = m0) -> Forall (fun c => c = m0) l.
  Proof.
    induction xs as [|z xs IH]; intros l Hnd Hlen Hr.
    - destruct l; [constructor | cbn in Hlen; lia].
    - inversion Hnd as [|? ? Hz Hnd']; subst. apply (mquot_zero l z); [|apply Hr; now left].
      apply IH; auto; [rewrite mquot_length; cbn in Hlen; lia|].
      intros x Hx. pose proof (Hr x (or_intror Hx)) as H1. rewrite (mquot_spec l z x) in H1.
      rewrite (Hr z (or_introl eq_refl)), madd_0_r in H1.
      apply mscale_integral in H1 as [H1|H1]; [|exact H1].
      exfalso. apply Hz. apply (proj1 (fsub_eq0 _ _ _)) in H1. now subst.
  Qed.

  (** a non-zero polynomial with n coefficients has at most n - 1 roots *)
  Lemma roots_bound (xs : list K) (l : list M) : NoDup xs -> (exists c, In c l /\ c <> m0) ->
    (forall x, In x xs -> mev l x = m0) -> length xs <= length l - 1.
  Proof.
    intros Hnd [c [Hc Hn]] Hr. destruct (Nat.le_gt_cases (length l) (length xs)) as [H|H]; [|lia].
    exfalso. apply Hn. pose proof (roots_zero xs l Hnd H Hr) as HF. rewrite Forall_forall in HF. auto.
  Qed.
End Roots.

Lemma mev_ev {K : field} (l : list K) x : mev (M := fmod K) l x = poly_evaluate l x.
Proof. induction l; [reflexivity|]. cbn [mev]. rewrite IHl. reflexivity. Qed.

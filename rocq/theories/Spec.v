(** Specification vocabulary: finite sums and products given by index functions, independent of the
    list operations and helpers of the model. *)
Require Import List Arith Bool.
Import ListNotations.
Require Import Verif.Outcome Verif.Algebra.

Section Spec.
  Context {K : field}.

  (** sum_{i < n} F i in a module *)
  Fixpoint big {M : module K} (n : nat) (F : nat -> M) : M :=
    match n with O => m0 | S n => big n F +m F n end.

  (** sum_{i < n} F i in the field *)
  Fixpoint fbig (n : nat) (F : nat -> K) : K :=
    match n with O => f0 | S n => fbig n F +f F n end.

  (** prod_{i < n} F i in the field *)
  Fixpoint fprod (n : nat) (F : nat -> K) : K :=
    match n with O => f1 | S n => fprod n F *f F n end.

  (** i-th element (zero outside) *)
  Definition at_ {M : module K} (l : list M) (i : nat) : M := nth i l m0.
  Definition fat (l : list K) (i : nat) : K := nth i l f0.

  (** value at x of the polynomial with coefficients l: sum_i l_i x^i *)
  Definition poly_at (l : list K) (x : K) : K := fbig (length l) (fun i => fat l i *f fpow x i).

  (** elementwise sum and scalar multiple of vectors, by index *)
  Definition vadd {M : module K} (l r : list M) : list M :=
    map (fun i => at_ l i +m at_ r i) (seq 0 (length l)).
  Definition vscale {M : module K} (x : K) (l : list M) : list M :=
    map (fun i => x *m at_ l i) (seq 0 (length l)).

  (** product of the t_j for the bits j set in i (bit 0 = first element of t) *)
  Definition subset_prod (t : list K) (i : nat) : K :=
    fprod (length t) (fun j => if Nat.testbit i j then fat t j else f1).
End Spec.

(** [a] is what [usable] gives at the first index where it gives something. *)
Definition first_usable {A} (usable : nat -> option A) (m : nat) (a : A) : Prop :=
  usable m = Some a /\ forall n, n < m -> usable n = None.

(** sum_i e(l_i, r_i) *)
Definition pairing_sum (P : pairing) (l : list (pG1 P)) (r : list (pG2 P)) : pGT P :=
  big (length l) (fun i => pr_e P (at_ l i) (at_ r i)).
(** sum_i s_i b_i *)
Definition msm_sum {K} {M : module K} (b : list M) (s : list K) : M :=
  big (length b) (fun i => fat s i *m at_ b i).
(** sum_i l_i r_i *)
Definition scalar_sum {K : field} (l r : list K) : K :=
  fbig (length l) (fun i => fat l i *f fat r i).

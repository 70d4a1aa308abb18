(** Functional model of ark_poly::univariate::DensePolynomial (ark-poly 0.4, a dependency): the
    operations used by ip_proofs.  A polynomial is its coefficient vector [coeffs] (a public field:
    it may have trailing zeros if built directly). *)
Require Import List Arith Bool.
Import ListNotations.
Require Import Verif.Outcome Verif.Algebra Verif.Rust.

Section Poly.
  Context {K : field}.

  (** [truncate_leading_zeros]: pops zero coefficients from the end. *)
  Fixpoint strip (l : list K) : list K :=
    match l with
    | [] => []
    | x :: t => match strip t with
                | [] => if feqb x f0 then [] else [x]
                | t' => x :: t'
                end
    end.

  (** [from_coefficients_vec] / [from_coefficients_slice] *)
  Definition from_coefficients (l : list K) : list K := strip l.

  (** [Zero::is_zero]: no coefficient, or all of them zero. *)
  Definition poly_is_zero (l : list K) : bool := forallb (fun c => feqb c f0) l.

  (** [Polynomial::degree]: asserts that the leading coefficient is not zero. *)
  Definition poly_degree (l : list K) : res nat :=
    if poly_is_zero l then Ok 0 else
    do _ <- rassert (match last_opt l with Some c => negb (feqb c f0) | None => false end);
    Ok (length l - 1).

  (** [Polynomial::evaluate]: Horner's rule. *)
  Definition poly_evaluate (l : list K) (x : K) : K :=
    fold_right (fun c acc => c +f x *f acc) f0 l.

  (** [&a - &b], then [truncate_leading_zeros]. Modelled as the coefficientwise difference of the
      zero-padded vectors. *)
  Definition poly_sub (a b : list K) : list K :=
    let n := Nat.max (length a) (length b) in
    strip (zipw fsub (resize n f0 a) (resize n f0 b)).

  (** Inner loop of the long division: [remainder[k + i] -= q * divisor[i]]. *)
  Fixpoint sub_scaled_at (k : nat) (q : K) (div rem : list K) : list K :=
    match k, rem with
    | O, _ => (fix go d r := match d, r with
               | x :: d, y :: r => (y -f q *f x) :: go d r
               | _, r => r end) div rem
    | S k, y :: rem => y :: sub_scaled_at k q div rem
    | S _, [] => []
    end.

  (** [quotient[i] = q] *)
  Fixpoint list_set {A} (i : nat) (x : A) (l : list A) : list A :=
    match i, l with
    | _, [] => []
    | O, _ :: t => x :: t
    | S i, y :: t => y :: list_set i x t
    end.

  (** The [while] loop of [divide_with_q_and_r]; each iteration lowers the degree, so
      [length remainder] iterations are enough. *)
  Fixpoint div_loop (fuel : nat) (lead_inv : K) (divisor quotient remainder : list K)
    : res (list K * list K) :=
    match fuel with
    | O => Loop
    | S fuel =>
      if poly_is_zero remainder then Ok (quotient, remainder) else
      do dr <- poly_degree remainder;
      do dd <- poly_degree divisor;
      if dr <? dd then Ok (quotient, remainder) else
      do lc <- runwrap (last_opt remainder);
      let q := lc *f lead_inv in
      div_loop fuel lead_inv divisor (list_set (dr - dd) q quotient)
        (strip (sub_scaled_at (dr - dd) q divisor remainder))
    end.

  (** [&a / &b] = [divide_with_q_and_r(a, b).expect(..).0] *)
  Definition poly_div (a b : list K) : res (list K) :=
    if poly_is_zero a then Ok [] else
    if poly_is_zero b then Panic else
    do da <- poly_degree a;
    do db <- poly_degree b;
    if da <? db then Ok [] else
    do lead <- runwrap (last_opt b);
    do lead_inv <- runwrap (finverse lead);
    do (q, _) <- div_loop (S (length a)) lead_inv b (repeat f0 (da - db + 1)) a;
    Ok (from_coefficients q).
End Poly.

(** A concrete executable instance of the algebraic interfaces, used to show that they are
    inhabited and to run the Examples: the prime field with 101 elements, used also as the three
    groups, with the product as pairing. *)
Require Import List Arith NArith ZArith Lia Bool Field Eqdep_dec.
Import ListNotations.
Require Import Verif.Outcome Verif.Algebra.

Definition zp_p : Z := 101.
Definition zp_ok (z : Z) : bool := Z.eqb (z mod zp_p) z.
Definition zp : Type := { z : Z | zp_ok z = true }.

Lemma zp_ok_mod z : zp_ok (z mod zp_p) = true.
Proof. unfold zp_ok. apply Z.eqb_eq. now rewrite Z.mod_mod. Qed.

(** [bool_dec] makes the proof component compute to [eq_refl]. *)
Definition zp_of (z : Z) : zp :=
  match bool_dec (zp_ok (z mod zp_p)) true with
  | left e => exist _ (z mod zp_p)%Z e
  | right _ => exist _ 0%Z eq_refl
  end.
Definition zp_val (a : zp) : Z := proj1_sig a.

Lemma zp_val_of z : zp_val (zp_of z) = (z mod zp_p)%Z.
Proof.
  unfold zp_of. destruct (bool_dec _ _) as [e|n]; [reflexivity|].
  exfalso. apply n, zp_ok_mod.
Qed.

Lemma zp_eq a b : zp_val a = zp_val b -> a = b.
Proof.
  destruct a as [a ha], b as [b hb]; cbn. intros ->. f_equal. apply UIP_dec, bool_dec.
Qed.

Lemma zp_mod a : (zp_val a mod zp_p = zp_val a)%Z.
Proof. destruct a as [a h]; cbn. now apply Z.eqb_eq. Qed.

Lemma zp_range a : (0 <= zp_val a < zp_p)%Z.
Proof. rewrite <- (zp_mod a). apply Z.mod_pos_bound. reflexivity. Qed.

Fixpoint zp_powmod (b : Z) (n : nat) : Z :=
  match n with O => 1 | S n => (b * zp_powmod b n) mod zp_p end%Z.

Definition zp_add a b := zp_of (zp_val a + zp_val b).
Definition zp_mul a b := zp_of (zp_val a * zp_val b).
Definition zp_sub a b := zp_of (zp_val a - zp_val b).
Definition zp_opp a := zp_of (- zp_val a).
Definition zp_inv a := zp_of (zp_powmod (zp_val a) 99).
Definition zp_div a b := zp_mul a (zp_inv b).

Lemma zp_inv_check :
  forallb (fun n => let z := Z.of_nat n in Z.eqb ((zp_powmod z 99 mod zp_p * z) mod zp_p) 1)
          (seq 1 100) = true.
Proof. vm_compute. reflexivity. Qed.

Lemma zp_field_theory :
  field_theory (zp_of 0) (zp_of 1) zp_add zp_mul zp_sub zp_opp zp_div zp_inv eq.
Proof.
  constructor.
  - constructor; intros; apply zp_eq; unfold zp_add, zp_mul, zp_sub, zp_opp;
      rewrite ?zp_val_of.
    + rewrite Zmod_0_l, Z.add_0_l. apply zp_mod.
    + now rewrite Z.add_comm.
    + rewrite Zplus_mod_idemp_r, Zplus_mod_idemp_l. f_equal. ring.
    + replace (1 mod zp_p)%Z with 1%Z by reflexivity. rewrite Z.mul_1_l. apply zp_mod.
    + now rewrite Z.mul_comm.
    + rewrite Zmult_mod_idemp_r, Zmult_mod_idemp_l. f_equal. ring.
    + rewrite Zmult_mod_idemp_l, Zplus_mod_idemp_r, Zplus_mod_idemp_l. f_equal. ring.
    + rewrite Zplus_mod_idemp_r. f_equal.
    + rewrite Zplus_mod_idemp_r. replace (zp_val x + - zp_val x)%Z with 0%Z by ring. reflexivity.
  - intros H. apply (f_equal zp_val) in H. vm_compute in H. discriminate.
  - reflexivity.
  - intros a Ha. apply zp_eq. unfold zp_mul, zp_inv. rewrite !zp_val_of.
    pose proof (zp_range a) as R.
    assert (Hn : zp_val a <> 0%Z).
    { intros E. apply Ha, zp_eq. rewrite zp_val_of. rewrite E. reflexivity. }
    pose proof zp_inv_check as C. rewrite forallb_forall in C.
    specialize (C (Z.to_nat (zp_val a))). cbn zeta in C.
    rewrite Z2Nat.id in C by lia. apply Z.eqb_eq.
    change (1 mod zp_p)%Z with 1%Z. apply C.
    apply in_seq. unfold zp_p in R. lia.
Qed.

Definition zp_eqb (a b : zp) : bool := Z.eqb (zp_val a) (zp_val b).

Lemma zp_eqb_spec a b : zp_eqb a b = true <-> a = b.
Proof.
  unfold zp_eqb. rewrite Z.eqb_eq. split; [apply zp_eq | intros ->; reflexivity].
Qed.

(** [from_random_bytes]: rejects when the first byte is 7 modulo 8. *)
Definition zp_rand (b : bytes) : option zp :=
  match b with
  | [] => None
  | x :: _ => if N.eqb (x mod 8) 7 then None
              else Some (zp_of (fold_left (fun acc y => (256 * acc + Z.of_N y) mod zp_p)%Z b 0%Z))
  end.

Definition ZP : field := {|
  fcar := zp; f0 := zp_of 0; f1 := zp_of 1; fadd := zp_add; fmul := zp_mul; fsub := zp_sub;
  fopp := zp_opp; fdiv := zp_div; finv := zp_inv; feqb := zp_eqb;
  fser := fun a => [Z.to_N (zp_val a)];
  f_ofN := fun n => zp_of (Z.of_N n);
  f_rand := zp_rand;
  f_theory := zp_field_theory; feqb_spec := zp_eqb_spec |}.

Definition ZM : module ZP := fmod ZP.

Definition zp_mml (l r : list zp) : zp :=
  fold_right zp_add (zp_of 0) (map (fun p => zp_mul (fst p) (snd p)) (combine l r)).

Definition ZPair : pairing.
Proof.
  refine {| pK := ZP; pG1 := ZM; pG2 := ZM; pGT := ZM; tf := zp; tf1 := zp_of 0; tfmul := zp_add;
            mml := zp_mml; fexp := fun x => Some x; pr_e := zp_mul;
            pr_g := zp_of 1; pr_h := zp_of 1 |}.
  - reflexivity.
  - intros x y a b [= <-] [= <-]. reflexivity.
  - reflexivity.
  - apply (Rdistr_l (F_R zp_field_theory)).
  - intros a b b'. cbn. rewrite !(Rmul_comm (F_R zp_field_theory) a).
    apply (Rdistr_l (F_R zp_field_theory)).
  - intros. symmetry. apply (Rmul_assoc (F_R zp_field_theory)).
  - intros x a b. cbn. rewrite !(Rmul_assoc (F_R zp_field_theory)).
    f_equal. apply (Rmul_comm (F_R zp_field_theory)).
  - intros a H. cbn in *. rewrite <- H. rewrite (Rmul_comm (F_R zp_field_theory)).
    symmetry. apply (Rmul_1_l (F_R zp_field_theory)).
  - intros a H. cbn in *. rewrite <- H.
    symmetry. apply (Rmul_1_l (F_R zp_field_theory)).
Defined.

(** A toy digest with 32 bytes of output: not collision resistant, but not constant either. *)
Definition toy_digest (b : bytes) : bytes :=
  let h := fold_left (fun acc x => (acc * 31 + x + 7) mod 65521)%N b 1%N in
  map (fun i => ((h * (N.of_nat i + 3) + N.of_nat i) mod 251) mod 256)%N (seq 0 32).

Definition zq (n : Z) : zp := zp_of n.

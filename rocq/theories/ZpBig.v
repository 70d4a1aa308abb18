(** The integers modulo a prime as an instance of the interfaces, and the one with 262147 elements: the field of Zp.v
    has too few elements to hold a byte.  Used for Examples only. *)
Require Import List Arith NArith ZArith Znumtheory Lia Bool Field Eqdep_dec.
Import ListNotations.
Require Import Verif.Outcome Verif.Algebra.

(** Extended Euclid: the coefficient of [a] in the combination that gives the gcd of [a] and [b]. *)
Fixpoint egcd (fuel : nat) (a b : Z) : Z * Z :=
  match fuel with
  | O => (1, 0)
  | S fuel => if (b =? 0)%Z then (1, 0) else
    let (x, y) := egcd fuel b (a mod b) in (y, x - a / b * y)
  end%Z.

Lemma egcd_gcd fuel : forall a b, (0 <= b < Z.of_nat fuel)%Z -> (0 <= a)%Z ->
  let (x, y) := egcd fuel a b in (a * x + b * y = Z.gcd a b)%Z.
Proof.
  induction fuel as [|fuel IH]; intros a b Hb Ha; [lia|]. cbn [egcd]. destruct (Z.eqb_spec b 0) as [->|Hn].
  - rewrite Z.gcd_0_r, Z.abs_eq by lia. ring.
  - pose proof (Z.mod_pos_bound a b ltac:(lia)) as Hm. specialize (IH b (a mod b)%Z ltac:(lia) ltac:(lia)).
    destruct (egcd fuel b (a mod b)) as [x y]. rewrite Z.gcd_comm, Z.gcd_mod in IH by lia. rewrite (Z.gcd_comm a b), <- IH.
    pose proof (Z.div_mod a b Hn). nia.
Qed.

Section Zm.
  Variable p : Z.
  Hypothesis Hp : prime p.
  Definition zm : Type := { z : Z | Z.eqb (z mod p) z = true }.

  Lemma zm_ok_mod z : Z.eqb ((z mod p) mod p) (z mod p) = true.
  Proof. apply Z.eqb_eq. now rewrite Zmod_mod. Qed.
  Definition zm_of (z : Z) : zm :=
    match bool_dec (Z.eqb ((z mod p) mod p) (z mod p)) true with
    | left e => exist _ (z mod p)%Z e
    | right n => False_rect _ (n (zm_ok_mod z))
    end.
  Definition zm_val (a : zm) : Z := proj1_sig a.
  Lemma zm_val_of z : zm_val (zm_of z) = (z mod p)%Z.
  Proof. unfold zm_of. destruct (bool_dec _ _) as [e|n]; [reflexivity|]. exfalso. apply n, zm_ok_mod. Qed.
  Lemma zm_eq a b : zm_val a = zm_val b -> a = b.
  Proof. destruct a as [a ha], b as [b hb]; cbn. intros ->. f_equal. apply UIP_dec, bool_dec. Qed.
  Lemma zm_mod a : (zm_val a mod p = zm_val a)%Z.
  Proof. destruct a as [a h]; cbn. now apply Z.eqb_eq. Qed.
  Lemma zm_range a : (0 <= zm_val a < p)%Z.
  Proof using Hp. rewrite <- (zm_mod a). apply Z.mod_pos_bound. destruct Hp. lia. Qed.

  Definition zm_add a b := zm_of (zm_val a + zm_val b).
  Definition zm_mul a b := zm_of (zm_val a * zm_val b).
  Definition zm_sub a b := zm_of (zm_val a - zm_val b).
  Definition zm_opp a := zm_of (- zm_val a).
  Definition zm_inv a := zm_of (snd (egcd (S (Z.to_nat (zm_val a))) p (zm_val a))).
  Definition zm_div a b := zm_mul a (zm_inv b).

  Lemma zm_field_theory : field_theory (zm_of 0) (zm_of 1) zm_add zm_mul zm_sub zm_opp zm_div zm_inv eq.
  Proof using Hp.
    assert (H1 : (1 < p)%Z) by (destruct Hp; lia).
    constructor.
    - constructor; intros; apply zm_eq; unfold zm_add, zm_mul, zm_sub, zm_opp; rewrite ?zm_val_of.
      + rewrite Zmod_0_l, Z.add_0_l. apply zm_mod.
      + now rewrite Z.add_comm.
      + rewrite Zplus_mod_idemp_r, Zplus_mod_idemp_l. f_equal. ring.
      + rewrite (Z.mod_small 1) by lia. rewrite Z.mul_1_l. apply zm_mod.
      + now rewrite Z.mul_comm.
      + rewrite Zmult_mod_idemp_r, Zmult_mod_idemp_l. f_equal. ring.
      + rewrite Zmult_mod_idemp_l, Zplus_mod_idemp_r, Zplus_mod_idemp_l. f_equal. ring.
      + rewrite Zplus_mod_idemp_r. f_equal.
      + rewrite Zplus_mod_idemp_r. replace (zm_val x + - zm_val x)%Z with 0%Z by ring. reflexivity.
    - intros H. apply (f_equal zm_val) in H. rewrite !zm_val_of, !Z.mod_small in H by lia. discriminate.
    - reflexivity.
    - intros a Ha. apply zm_eq. unfold zm_mul, zm_inv. rewrite !zm_val_of. pose proof (zm_range a) as R.
      assert (Hn : zm_val a <> 0%Z) by (intros E; apply Ha, zm_eq; now rewrite zm_val_of, E, Zmod_0_l).
      pose proof (egcd_gcd (S (Z.to_nat (zm_val a))) p (zm_val a) ltac:(lia) ltac:(lia)) as He.
      destruct (egcd (S (Z.to_nat (zm_val a))) p (zm_val a)) as [x y]. cbn [snd].
      assert (Hg : Z.gcd p (zm_val a) = 1%Z).
      { apply Zgcd_1_rel_prime, rel_prime_sym. destruct Hp as [_ Hr]. apply Hr. lia. }
      rewrite Hg in He. rewrite Zmult_mod_idemp_l. replace (y * zm_val a)%Z with (1 + (- x) * p)%Z by lia.
      now rewrite Z_mod_plus_full.
  Qed.

  Definition zm_eqb (a b : zm) : bool := Z.eqb (zm_val a) (zm_val b).
  Lemma zm_eqb_spec a b : zm_eqb a b = true <-> a = b.
  Proof. unfold zm_eqb. rewrite Z.eqb_eq. split; [apply zm_eq|intros ->; reflexivity]. Qed.

  Definition ZF : field := {|
    fcar := zm; f0 := zm_of 0; f1 := zm_of 1; fadd := zm_add; fmul := zm_mul; fsub := zm_sub;
    fopp := zm_opp; fdiv := zm_div; finv := zm_inv; feqb := zm_eqb;
    fser := fun a => [Z.to_N (zm_val a)];
    f_ofN := fun n => zm_of (Z.of_N n);
    f_rand := fun b => match b with [] => None | x :: _ => Some (zm_of (Z.of_N x)) end;
    f_theory := zm_field_theory; feqb_spec := zm_eqb_spec |}.

  Definition ZFPair : pairing.
  Proof.
    refine {| pK := ZF; pG1 := fmod ZF; pG2 := fmod ZF; pGT := fmod ZF; tf := zm; tf1 := zm_of 0; tfmul := zm_add;
              mml := fun l r => fold_right zm_add (zm_of 0) (map (fun p => zm_mul (fst p) (snd p)) (combine l r));
              fexp := fun x => Some x; pr_e := zm_mul; pr_g := zm_of 1; pr_h := zm_of 1 |}.
    - reflexivity.
    - intros x y a b [= <-] [= <-]. reflexivity.
    - reflexivity.
    - apply (Rdistr_l (F_R zm_field_theory)).
    - intros a b b'. cbn. rewrite !(Rmul_comm (F_R zm_field_theory) a). apply (Rdistr_l (F_R zm_field_theory)).
    - intros. symmetry. apply (Rmul_assoc (F_R zm_field_theory)).
    - intros x a b. cbn. rewrite !(Rmul_assoc (F_R zm_field_theory)). f_equal. apply (Rmul_comm (F_R zm_field_theory)).
    - intros a H. cbn in *. rewrite <- H. rewrite (Rmul_comm (F_R zm_field_theory)). symmetry. apply (Rmul_1_l (F_R zm_field_theory)).
    - intros a H. cbn in *. rewrite <- H. symmetry. apply (Rmul_1_l (F_R zm_field_theory)).
  Defined.
End Zm.

Lemma prime_262147 : prime 262147.
Proof.
  apply prime_alt. split; [lia|]. intros n Hn [k Hk].
  assert (Hd : forall d, (2 <= d <= 512)%Z -> (262147 mod d <> 0)%Z).
  { assert (C : forallb (fun i => negb (262147 mod (Z.of_nat i + 2) =? 0)%Z) (seq 0 511) = true) by (vm_compute; reflexivity).
    rewrite forallb_forall in C. intros d Hd E.
    assert (Hin : In (Z.to_nat (d - 2)) (seq 0 511)) by (apply in_seq; lia).
    specialize (C _ Hin). rewrite Z2Nat.id in C by lia. replace (d - 2 + 2)%Z with d in C by lia. rewrite E in C. discriminate C. }
  assert (Hk2 : (2 <= k)%Z) by nia.
  destruct (Z.le_gt_cases n 512) as [H|H].
  - apply (Hd n); [lia|]. rewrite Hk. apply Z.mod_mul. lia.
  - apply (Hd k); [nia|]. rewrite Hk, Z.mul_comm. apply Z.mod_mul. lia.
Qed.
Definition F262147 : field := ZF 262147 prime_262147.
Definition P262147 : pairing := ZFPair 262147 prime_262147.
Definition zf (n : N) : F262147 := f_ofN n.

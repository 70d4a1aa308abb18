(** Prime fields with the encodings of ark-ff: little-endian bytes, and from_random_bytes on the low bits of the first bytes of a
    digest.  The instances are the scalar fields of BLS12-381 and BLS12-377, which the tests, examples and benchmarks use
    (benches/benches/gipa.rs:1, benches/benches/groth16_aggregation/bench.rs:1, sipp/examples/scaling-ipp.rs). *)
Require Import List Arith NArith ZArith Znumtheory Lia Bool Field.
Import ListNotations.
Require Import Verif.Outcome Verif.Algebra Verif.Rust Verif.Spec Verif.ListFacts Verif.Circuits Verif.CircuitFacts Verif.SerFacts Verif.ZpBig Verif.Pocklington.

(** Extended Euclid in a number of steps logarithmic in the numbers (for computing with the large fields). *)
Lemma egcd_gcd_log fuel : forall a b, (0 <= b <= a)%Z -> (a * b < 2 ^ Z.of_nat fuel)%Z ->
  let (x, y) := egcd fuel a b in (a * x + b * y = Z.gcd a b)%Z.
Proof.
  induction fuel as [|fuel IH]; intros a b Hb Hab; cbn [egcd].
  - change (2 ^ Z.of_nat 0)%Z with 1%Z in Hab. assert (b = 0)%Z as -> by nia. rewrite Z.gcd_0_r, Z.abs_eq by lia. ring.
  - destruct (Z.eqb_spec b 0) as [->|Hn]; [rewrite Z.gcd_0_r, Z.abs_eq by lia; ring|].
    pose proof (Z.mod_pos_bound a b ltac:(lia)) as Hm. pose proof (Z.div_mod a b Hn) as Hd.
    assert (Hq : (1 <= a / b)%Z) by (apply Z.div_le_lower_bound; lia).
    assert (Hlt : (b * (a mod b) < 2 ^ Z.of_nat fuel)%Z).
    { rewrite Nat2Z.inj_succ, Z.pow_succ_r in Hab by lia. assert (2 * (a mod b) <= a)%Z by nia. nia. }
    specialize (IH b (a mod b)%Z ltac:(lia) Hlt). destruct (egcd fuel b (a mod b)) as [x y].
    rewrite Z.gcd_comm, Z.gcd_mod in IH by lia. rewrite (Z.gcd_comm a b), <- IH. clear - Hd. nia.
Qed.

Section Fp.
  Variable p : Z.
  Hypothesis Hp : prime p.
  Variables (k bits : nat).

  Notation zm := (zm p).
  Definition fp_inv (a : zm) : zm := zm_of p (snd (egcd (Z.to_nat (2 * Z.log2 p + 2)) p (zm_val p a))).
  Definition fp_div (a b : zm) : zm := zm_mul p a (fp_inv b).

  Lemma fp_field_theory : field_theory (zm_of p 0) (zm_of p 1) (zm_add p) (zm_mul p) (zm_sub p) (zm_opp p) fp_div fp_inv eq.
  Proof using Hp.
    destruct (zm_field_theory p Hp) as [R H1 _ _]. constructor; [exact R|exact H1|reflexivity|].
    assert (Hp1 : (1 < p)%Z) by (destruct Hp; assumption).
    intros a Ha. apply zm_eq. unfold zm_mul, fp_inv. rewrite !zm_val_of. pose proof (zm_range p Hp a) as Ra.
    assert (Hn : zm_val p a <> 0%Z) by (intros E; apply Ha, zm_eq; now rewrite zm_val_of, E, Zmod_0_l).
    assert (Hlt : (p * zm_val p a < 2 ^ Z.of_nat (Z.to_nat (2 * Z.log2 p + 2)))%Z).
    { pose proof (Z.log2_nonneg p). rewrite Z2Nat.id by lia. replace (2 * Z.log2 p + 2)%Z with (Z.succ (Z.log2 p) + Z.succ (Z.log2 p))%Z by lia.
      rewrite Z.pow_add_r by lia. pose proof (Z.log2_spec p ltac:(lia)) as [_ Hl]. nia. }
    pose proof (egcd_gcd_log _ p (zm_val p a) ltac:(lia) Hlt) as He.
    destruct (egcd (Z.to_nat (2 * Z.log2 p + 2)) p (zm_val p a)) as [x y]. cbn [snd].
    assert (Hg : Z.gcd p (zm_val p a) = 1%Z).
    { apply Zgcd_1_rel_prime, rel_prime_sym. destruct Hp as [_ Hr]. apply Hr. lia. }
    rewrite Hg in He. rewrite Zmult_mod_idemp_l. replace (y * zm_val p a)%Z with (1 + (- x) * p)%Z by lia.
    now rewrite Z_mod_plus_full.
  Qed.

  (** Fp::serialize_compressed: the representative below p in k bytes, least significant first *)
  Definition fp_ser (a : zm) : bytes := le_bytes k (Z.to_N (zm_val p a)).
  (** Fp::from_random_bytes: the first k bytes without the bits above MODULUS_BIT_SIZE, if that is below p; shorter inputs are
      filled up with zeros *)
  Definition low_bits (b : bytes) : N := (from_le_bytes (firstn k b) mod 2 ^ N.of_nat bits)%N.
  Definition fp_rand (b : bytes) : option zm := if (Z.of_N (low_bits b) <? p)%Z then Some (zm_of p (Z.of_N (low_bits b))) else None.

  Definition Fp : field := {|
    fcar := zm; f0 := zm_of p 0; f1 := zm_of p 1; fadd := zm_add p; fmul := zm_mul p; fsub := zm_sub p;
    fopp := zm_opp p; fdiv := fp_div; finv := fp_inv; feqb := zm_eqb p; fser := fp_ser;
    f_ofN := fun n => zm_of p (Z.of_N n); f_rand := fp_rand; f_theory := fp_field_theory; feqb_spec := zm_eqb_spec p |}.

  (** groups of order p written by their discrete logarithms *)
  Definition FpPair : pairing.
  Proof.
    refine {| pK := Fp; pG1 := fmod Fp; pG2 := fmod Fp; pGT := fmod Fp; tf := zm; tf1 := zm_of p 0; tfmul := zm_add p;
              mml := fun l r => fold_right (zm_add p) (zm_of p 0) (map (fun q => zm_mul p (fst q) (snd q)) (combine l r));
              fexp := fun x => Some x; pr_e := zm_mul p; pr_g := zm_of p 1; pr_h := zm_of p 1 |}.
    - reflexivity.
    - intros x y a b [= <-] [= <-]. reflexivity.
    - reflexivity.
    - apply (Rdistr_l (F_R fp_field_theory)).
    - intros a b b'. cbn. rewrite !(Rmul_comm (F_R fp_field_theory) a). apply (Rdistr_l (F_R fp_field_theory)).
    - intros. symmetry. apply (Rmul_assoc (F_R fp_field_theory)).
    - intros x a b. cbn. rewrite !(Rmul_assoc (F_R fp_field_theory)). f_equal. apply (Rmul_comm (F_R fp_field_theory)).
    - intros a H. cbn in *. rewrite <- H. rewrite (Rmul_comm (F_R fp_field_theory)). symmetry. apply (Rmul_1_l (F_R fp_field_theory)).
    - intros a H. cbn in *. rewrite <- H. symmetry. apply (Rmul_1_l (F_R fp_field_theory)).
  Defined.

  Lemma fp_ser_prefix_free : (p <= 256 ^ Z.of_nat k)%Z -> prefix_free fp_ser.
  Proof using Hp.
    intros Hk. apply (fixed_length_prefix_free _ k); [intros a; apply le_bytes_length|]. intros a b E.
    apply (f_equal from_le_bytes) in E. unfold fp_ser in E. rewrite !from_le_le in E.
    pose proof (zm_range p Hp a) as Ra. pose proof (zm_range p Hp b) as Rb.
    assert (Hlt : forall z, (0 <= z < p)%Z -> (Z.to_N z < 256 ^ N.of_nat k)%N).
    { intros z Hz. apply N2Z.inj_lt. rewrite Z2N.id, N2Z.inj_pow, nat_N_Z by lia. change (Z.of_N 256) with 256%Z. lia. }
    rewrite !N.mod_small in E by auto. apply zm_eq. apply Z2N.inj; lia.
  Qed.
  Lemma fp_ofN_inj x y : (Z.of_N x < p)%Z -> (Z.of_N y < p)%Z -> f_ofN (f := Fp) x = f_ofN y -> x = y.
  Proof using.
    intros Hx Hy E. apply (f_equal (zm_val p)) in E. cbn in E. rewrite !zm_val_of, !Z.mod_small in E by lia. lia.
  Qed.
  Lemma fp_rand_some b (z : Fp) : f_rand b = Some z <-> (Z.of_N (low_bits b) = zm_val p z)%Z.
  Proof using.
    cbn. unfold fp_rand. destruct (Z.ltb_spec (Z.of_N (low_bits b)) p) as [L|L].
    - split.
      + intros E. assert (E' : zm_of p (Z.of_N (low_bits b)) = z) by congruence. rewrite <- E', zm_val_of, Z.mod_small by lia. reflexivity.
      + intros E. f_equal. apply zm_eq. rewrite zm_val_of, Z.mod_small by lia. exact E.
    - split; [discriminate|]. intros E. pose proof (zm_range p Hp z). lia.
  Qed.
  Lemma fp_rand_none b : f_rand (f := Fp) b = None <-> (p <= Z.of_N (low_bits b))%Z.
  Proof using. cbn. unfold fp_rand. destruct (Z.ltb_spec (Z.of_N (low_bits b)) p); split; (discriminate || lia || reflexivity). Qed.
End Fp.

(** ark_bls12_381::Fr (MODULUS_BIT_SIZE = 255) and ark_bls12_377::Fr (MODULUS_BIT_SIZE = 253), both four limbs of 64 bits *)
Definition Fr381 : field := Fp r381 prime_r381 32 255.
Definition Fr377 : field := Fp r377 prime_r377 32 253.
Definition P381 : pairing := FpPair r381 prime_r381 32 255.
Definition P377 : pairing := FpPair r377 prime_r377 32 253.

(** The degree split of the univariate commitments (C37). *)
Require Import List Arith NArith ZArith Lia Bool.
Require Import Verif.Outcome Verif.Algebra Verif.Rust Verif.RustFacts Verif.Floats Verif.FloatFacts Verif.PolyCommit.

Lemma bivariate_degrees_ok f d : 1 <= f -> 1 <= d -> (Z.of_nat d < 2 ^ 52)%Z ->
  exists j a b, bivariate_degrees (2 * 2 ^ f) (2 ^ f) d = Ok (2 ^ a - 1, 2 ^ b - 1) /\
    1 <= a /\ a <= b /\ a + b = 2 * j /\
    (Z.of_nat (d + 1) <= (2 ^ Z.of_nat j) * 2 ^ Z.of_nat j)%Z /\
    (forall i, i < j -> (2 ^ Z.of_nat i * 2 ^ Z.of_nat i < Z.of_nat (d + 1))%Z).
Proof.
  intros Hf Hd Hlt.
  destruct (least_pow4 (Z.of_nat (d + 1))) as [jz [Hj1 [Hj2 Hj3]]]; [lia|].
  assert (Hj26 : (jz <= 26)%Z).
  { destruct (Z.le_gt_cases jz 26) as [|Hg]; auto. exfalso.
    assert (2 ^ 52 <= 2 ^ (2 * (jz - 1)))%Z by (apply Z.pow_le_mono_r; lia). lia. }
  destruct (Z_of_nat_complete jz) as [j ->]; [lia|].
  assert (Hs := sqrt_next_pow2 (Z.of_nat (d + 1)) j ltac:(lia) ltac:(lia) Hj3).
  unfold bivariate_degrees. rewrite Hs. clear Hs.
  assert (Hsq : (Z.of_nat (d + 1) <= (2 ^ Z.of_nat j) * 2 ^ Z.of_nat j)%Z).
  { rewrite <- Z.pow_add_r by lia. etransitivity; [exact Hj2|]. apply Z.pow_le_mono_r; lia. }
  assert (Hmin : forall i, i < j -> (2 ^ Z.of_nat i * 2 ^ Z.of_nat i < Z.of_nat (d + 1))%Z).
  { intros i Hi. rewrite <- Z.pow_add_r by lia. eapply Z.le_lt_trans; [|exact Hj3].
    apply Z.pow_le_mono_r; lia. }
  exists j. cbv zeta.
  assert (Hp : forall i, 2 ^ i <> 0) by (intros; apply Nat.pow_nonzero; lia).
  destruct (Nat.leb_spec (2 * 2 ^ f) (2 ^ j)) as [Hle|Hgt].
  - assert (Hfj : S f <= j) by (apply (Nat.pow_le_mono_r_iff 2); [lia|exact Hle]).
    exists (j - f), (j + f).
    destruct (Nat.eqb_spec (2 ^ f) 0) as [H0|_]; [now apply Hp in H0|].
    replace (2 ^ j / 2 ^ f) with (2 ^ (j - f)).
    2:{ replace j with ((j - f) + f) at 2 by lia. rewrite Nat.pow_add_r. now rewrite Nat.div_mul. }
    rewrite <- Nat.pow_add_r. repeat split; auto; lia.
  - assert (Hfj : j < S f) by (apply (Nat.pow_lt_mono_r_iff 2); [lia|exact Hgt]).
    exists 1, (2 * j - 1).
    replace (2 ^ j / 2) with (2 ^ (j - 1)).
    2:{ replace j with ((j - 1) + 1) at 2 by lia. rewrite Nat.pow_add_r. now rewrite Nat.div_mul. }
    destruct (Nat.eqb_spec (2 ^ (j - 1)) 0) as [H0|_]; [now apply Hp in H0|].
    replace (2 ^ j / 2 ^ (j - 1)) with (2 ^ 1).
    2:{ replace j with (1 + (j - 1)) at 1 by lia. rewrite Nat.pow_add_r. now rewrite Nat.div_mul. }
    rewrite <- Nat.pow_add_r. replace (j + (j - 1)) with (2 * j - 1) by lia.
    repeat split; auto; lia.
Qed.

(** degree 0: the skew factor is zero *)
Lemma bivariate_degrees_0 f : 1 <= f -> bivariate_degrees (2 * 2 ^ f) (2 ^ f) 0 = Panic.
Proof.
  intros Hf. unfold bivariate_degrees.
  replace (next_power_of_two _) with 1 by (vm_compute; reflexivity). cbv zeta.
  assert (2 ^ f <> 0) by (apply Nat.pow_nonzero; lia).
  destruct (Nat.leb_spec (2 * 2 ^ f) 1); [lia|]. reflexivity.
Qed.

(** degree 2^52: the root of 2^52 + 1 is rounded down to 2^26 *)
Lemma sqrt_rounds_down : f64_ceil_as_usize (f64_sqrt (f64_of_Z (2 ^ 52 + 1))) = (2 ^ 26)%Z.
Proof. vm_compute. reflexivity. Qed.

Lemma next_power_of_two_pow2 i : next_power_of_two (2 ^ i) = 2 ^ i.
Proof.
  destruct (next_power_of_two_spec (2 ^ i)) as [j [-> [H1 H2]]].
  destruct (Nat.lt_trichotomy i j) as [H|[->|H]]; auto.
  - specialize (H2 i H). lia.
  - apply (Nat.pow_lt_mono_r 2) in H; lia.
Qed.

Lemma bivariate_degrees_2_52 f d : 1 <= f -> f < 26 -> Z.of_nat d = (2 ^ 52)%Z ->
  bivariate_degrees (2 * 2 ^ f) (2 ^ f) d = Ok (2 ^ (26 - f) - 1, 2 ^ (26 + f) - 1).
Proof.
  intros Hf Hf' Hd. unfold bivariate_degrees.
  replace (Z.of_nat (d + 1)) with (2 ^ 52 + 1)%Z by lia. rewrite sqrt_rounds_down.
  replace (Z.to_nat (2 ^ 26)) with (2 ^ 26) by (rewrite Z2Nat.inj_pow by lia; reflexivity).
  rewrite next_power_of_two_pow2. set (e := 26) in *. cbv zeta.
  assert (Hp : forall i, 2 ^ i <> 0) by (intros; apply Nat.pow_nonzero; lia).
  assert (He : 2 * 2 ^ f <= 2 ^ e).
  { change (2 ^ S f <= 2 ^ e). apply Nat.pow_le_mono_r; lia. }
  destruct (Nat.leb_spec (2 * 2 ^ f) (2 ^ e)); [|lia].
  destruct (Nat.eqb_spec (2 ^ f) 0) as [H0|_]; [now apply Hp in H0|].
  rewrite <- Nat.pow_add_r. replace (2 ^ e / 2 ^ f) with (2 ^ (e - f)); [reflexivity|].
  replace e with ((e - f) + f) at 2 by lia. rewrite Nat.pow_add_r. now rewrite Nat.div_mul.
Qed.

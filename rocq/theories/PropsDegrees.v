(** C37 for every degree: when the degree split covers the polynomial and when rounding loses coefficients. *)
Require Import List Arith NArith ZArith Lia Bool.
Require Import Verif.Outcome Verif.Algebra Verif.Rust Verif.RustFacts Verif.Floats Verif.FloatFacts Verif.FloatLarge
  Verif.PolyCommit Verif.PcDegrees.

Lemma bivariate_degrees_pow f j d : 1 <= f -> 1 <= j ->
  next_power_of_two (Z.to_nat (f64_ceil_as_usize (f64_sqrt (f64_of_Z (Z.of_nat (d + 1)))))) = 2 ^ j ->
  exists a b, bivariate_degrees (2 * 2 ^ f) (2 ^ f) d = Ok (2 ^ a - 1, 2 ^ b - 1) /\ 1 <= a /\ a <= b /\ a + b = 2 * j.
Proof.
  intros Hf Hj Hs. unfold bivariate_degrees. rewrite Hs. clear Hs. cbv zeta.
  assert (Hp : forall i, 2 ^ i <> 0) by (intros; apply Nat.pow_nonzero; lia).
  destruct (Nat.leb_spec (2 * 2 ^ f) (2 ^ j)) as [Hle|Hgt].
  - assert (Hfj : S f <= j) by (apply (Nat.pow_le_mono_r_iff 2); [lia|exact Hle]).
    exists (j - f), (j + f).
    destruct (Nat.eqb_spec (2 ^ f) 0) as [H0|_]; [now apply Hp in H0|].
    replace (2 ^ j / 2 ^ f) with (2 ^ (j - f)).
    2:{ replace j with ((j - f) + f) at 2 by lia. rewrite Nat.pow_add_r. now rewrite Nat.div_mul. }
    rewrite <- Nat.pow_add_r. repeat split; auto; lia.
  - assert (Hfj : j < S f) by (apply (Nat.pow_lt_mono_r_iff 2); [lia|exact Hgt]).
    exists 1, (2 * j - 1).
    replace (2 ^ j / 2) with (2 ^ (j - 1)).
    2:{ replace j with ((j - 1) + 1) at 2 by lia. rewrite Nat.pow_add_r. now rewrite Nat.div_mul. }
    destruct (Nat.eqb_spec (2 ^ (j - 1)) 0) as [H0|_]; [now apply Hp in H0|].
    replace (2 ^ j / 2 ^ (j - 1)) with (2 ^ 1).
    2:{ replace j with (1 + (j - 1)) at 1 by lia. rewrite Nat.pow_add_r. now rewrite Nat.div_mul. }
    rewrite <- Nat.pow_add_r. replace (j + (j - 1)) with (2 * j - 1) by lia.
    repeat split; auto; lia.
Qed.

Lemma next_pow2_between c j : (2 ^ Z.of_nat j < c <= 2 ^ Z.of_nat (S j))%Z -> next_power_of_two (Z.to_nat c) = 2 ^ S j.
Proof.
  intros [H1 H2]. destruct (next_power_of_two_spec (Z.to_nat c)) as [i [-> [Hi1 Hi2]]]. f_equal.
  assert (0 < 2 ^ Z.of_nat j)%Z by (apply Z.pow_pos_nonneg; lia).
  assert (Hc1 : Z.to_nat c <= 2 ^ S j). { apply Nat2Z.inj_le. rewrite Nat2Z.inj_pow, Z2Nat.id by lia. exact H2. }
  assert (Hc2 : 2 ^ j < Z.to_nat c). { apply Nat2Z.inj_lt. rewrite Nat2Z.inj_pow, Z2Nat.id by lia. exact H1. }
  destruct (lt_eq_lt_dec i (S j)) as [[Hlt|]|Hgt]; auto.
  - assert (2 ^ i <= 2 ^ j) by (apply Nat.pow_le_mono_r; lia). lia.
  - specialize (Hi2 (S j) Hgt). lia.
Qed.

(** The degrees for which rounding makes the split too small: d + 1 exceeds some 4^k, k >= 26, by less than one and a
    half units in the last place of a double at 4^k (such a unit is 4^(k - 26)). *)
Definition rounding_loses (d : Z) : Prop :=
  exists k, (26 <= k <= 31 /\ 4 ^ k < d + 1 /\ 2 * (d + 1 - 4 ^ k) < 3 * 4 ^ (k - 26))%Z.

(** [s * s] is the number of coefficients of the split; [s] the least power of two that suffices, unless rounding
    loses coefficients, and then half of it. *)
Theorem C37_exact_partial thr fac d : (thr, fac) = (32, 16) \/ (thr, fac) = (8, 4) ->
  1 <= d -> (Z.of_nat d + 1 < 2 ^ 64)%Z ->
  exists j x y, bivariate_degrees thr fac d = Ok (x, y) /\
    (exists a, 1 <= a /\ x + 1 = 2 ^ a) /\ (exists b, y + 1 = 2 ^ b) /\
    (x + 1) * (y + 1) = 2 ^ j * 2 ^ j /\
    (rounding_loses (Z.of_nat d) -> (4 ^ Z.of_nat j < Z.of_nat d + 1 <= 4 ^ Z.of_nat (j + 1))%Z) /\
    (~ rounding_loses (Z.of_nat d) -> (4 ^ (Z.of_nat j - 1) < Z.of_nat d + 1 <= 4 ^ Z.of_nat j)%Z) /\
    (d + 1 <= (x + 1) * (y + 1) <-> ~ rounding_loses (Z.of_nat d)).
Proof.
  intros Hf Hd Hlt.
  assert (Hf' : exists f, 1 <= f /\ thr = 2 * 2 ^ f /\ fac = 2 ^ f).
  { destruct Hf as [[= -> ->]|[= -> ->]]; [exists 4|exists 2]; repeat split; lia. }
  destruct Hf' as [f [Hf1 [-> ->]]]. clear Hf.
  assert (H4 : forall z, (0 <= z)%Z -> (4 ^ z = 2 ^ (2 * z))%Z) by (intros z Hz; rewrite Z.pow_mul_r by lia; reflexivity).
  destruct (least_pow4 (Z.of_nat (d + 1))) as [jz [Hj1 [Hj2 Hj3]]]; [lia|].
  replace (Z.of_nat (d + 1)) with (Z.of_nat d + 1)%Z in * by lia.
  assert (Hex : forall k, (26 <= k <= 31)%Z -> (4 ^ k < Z.of_nat d + 1 /\ 2 * (Z.of_nat d + 1 - 4 ^ k) < 3 * 4 ^ (k - 26))%Z -> (k = jz - 1)%Z).
  { intros k Hk [Hk1 Hk2]. rewrite !H4 in * by lia.
    assert (2 * k < 2 * jz)%Z by (apply (Z.pow_lt_mono_r_iff 2); lia).
    assert (2 * (jz - 1) < 2 * k + 1)%Z.
    { apply (Z.pow_lt_mono_r_iff 2); try lia. rewrite (Z.pow_add_r 2 (2 * k) 1) by lia.
      assert (2 ^ (2 * (k - 26)) * 2 ^ 52 = 2 ^ (2 * k))%Z by (rewrite <- Z.pow_add_r by lia; f_equal; lia). lia. }
    lia. }
  assert (Hfin : forall j, 1 <= j -> (4 ^ Z.of_nat j <= 4 ^ jz)%Z ->
     next_power_of_two (Z.to_nat (f64_ceil_as_usize (f64_sqrt (f64_of_Z (Z.of_nat (d + 1)))))) = 2 ^ j ->
     (rounding_loses (Z.of_nat d) /\ (Z.of_nat j = jz - 1)%Z \/ ~ rounding_loses (Z.of_nat d) /\ Z.of_nat j = jz) ->
     exists j x y, bivariate_degrees (2 * 2 ^ f) (2 ^ f) d = Ok (x, y) /\
    (exists a, 1 <= a /\ x + 1 = 2 ^ a) /\ (exists b, y + 1 = 2 ^ b) /\
    (x + 1) * (y + 1) = 2 ^ j * 2 ^ j /\
    (rounding_loses (Z.of_nat d) -> (4 ^ Z.of_nat j < Z.of_nat d + 1 <= 4 ^ Z.of_nat (j + 1))%Z) /\
    (~ rounding_loses (Z.of_nat d) -> (4 ^ (Z.of_nat j - 1) < Z.of_nat d + 1 <= 4 ^ Z.of_nat j)%Z) /\
    (d + 1 <= (x + 1) * (y + 1) <-> ~ rounding_loses (Z.of_nat d))).
  { intros j Hj _ Hn Hc. destruct (bivariate_degrees_pow f j d Hf1 Hj Hn) as [a [b [H [Ha [_ Hab]]]]].
    exists j, (2 ^ a - 1), (2 ^ b - 1). pose proof (pow2_pos a). pose proof (pow2_pos b). split; [exact H|].
    replace (2 ^ a - 1 + 1) with (2 ^ a) by lia. replace (2 ^ b - 1 + 1) with (2 ^ b) by lia.
    split; [eauto|]. split; [eauto|].
    assert (E : 2 ^ a * 2 ^ b = 2 ^ j * 2 ^ j) by (rewrite <- !Nat.pow_add_r; f_equal; lia). split; [exact E|]. rewrite E.
    assert (E2 : Z.of_nat (2 ^ j * 2 ^ j) = (4 ^ Z.of_nat j)%Z).
    { rewrite Nat2Z.inj_mul, Nat2Z.inj_pow. rewrite H4 by lia. rewrite <- Z.pow_add_r by lia. f_equal. lia. }
    destruct Hc as [[Hr Hjz]|[Hr Hjz]].
    - split; [intros _|split; [tauto|]].
      + rewrite !H4 by lia. replace (2 * Z.of_nat (j + 1))%Z with (2 * jz)%Z by lia. rewrite Hjz. lia.
      + split; [|tauto]. intros Hle. exfalso. apply Nat2Z.inj_le in Hle. rewrite E2, H4 in Hle by lia. rewrite Hjz in Hle. lia.
    - split; [tauto|]. split; [intros _|].
      + rewrite !H4 by lia. rewrite Hjz. lia.
      + split; [auto|]. intros _. apply Nat2Z.inj_le. rewrite E2, H4 by lia. rewrite Hjz. lia. }
  destruct (Z.le_gt_cases jz 26) as [H26|H26].
  - destruct (Z_of_nat_complete jz) as [j ->]; [lia|].
    apply (Hfin j); [lia|lia| |].
    + apply sqrt_next_pow2; try lia.
      all: replace (Z.of_nat (d + 1)) with (Z.of_nat d + 1)%Z by lia; auto; lia.
    + right. split; [|reflexivity]. intros [k [Hk1 Hk2]]. specialize (Hex k Hk1 Hk2). lia.
  - assert (H32 : (2 * (jz - 1) < 64)%Z) by (apply (Z.pow_lt_mono_r_iff 2); lia).
    destruct (Z_of_nat_complete (jz - 1)) as [k Hk]; [lia|].
    destruct (f64_sqrt_large (jz - 1) (Z.of_nat d + 1)) as [B1 [B2 B3]]; [lia| |lia|].
    { replace (2 * (jz - 1) + 2)%Z with (2 * jz)%Z by lia. auto. }
    assert (Hrl : rounding_loses (Z.of_nat d) <-> (2 * (Z.of_nat d + 1 - 2 ^ (2 * (jz - 1))) < 3 * 2 ^ (2 * (jz - 1) - 52))%Z).
    { split.
      - intros [k' [Hk1 Hk2]]. assert (k' = jz - 1)%Z as -> by (apply Hex; auto). rewrite !H4 in Hk2 by lia.
        replace (2 * (jz - 1) - 52)%Z with (2 * (jz - 1 - 26))%Z by lia. lia.
      - intros H. exists (jz - 1)%Z. rewrite !H4 by lia. replace (2 * (jz - 1 - 26))%Z with (2 * (jz - 1) - 52)%Z by lia. lia. }
    replace (Z.of_nat d + 1)%Z with (Z.of_nat (d + 1)) in B1, B2, B3 by lia.
    set (c := f64_ceil_as_usize (f64_sqrt (f64_of_Z (Z.of_nat (d + 1))))) in *.
    replace (Z.of_nat (d + 1)) with (Z.of_nat d + 1)%Z in B3 by lia. rewrite <- Hrl in B3.
    destruct (Z.le_gt_cases c (2 ^ (jz - 1))) as [Hc|Hc].
    + apply (Hfin k); [lia|apply Z.pow_le_mono_r; lia| |].
      * assert (c = 2 ^ Z.of_nat k)%Z as -> by (rewrite <- Hk; lia).
        replace (Z.to_nat (2 ^ Z.of_nat k)) with (2 ^ k); [apply next_power_of_two_pow2|].
        apply Nat2Z.inj. rewrite Nat2Z.inj_pow, Z2Nat.id; [reflexivity|]. apply Z.pow_nonneg. lia.
      * left. split; [tauto|lia].
    + apply (Hfin (S k)); [lia|apply Z.pow_le_mono_r; lia| |].
      * apply next_pow2_between. rewrite <- Hk. replace (Z.of_nat (S k)) with (jz - 1 + 1)%Z by lia. lia.
      * right. split; [|lia]. rewrite <- B3. lia.
Qed.
Print Assumptions C37_exact_partial.

(** Polynomials with 2^54 + 1 to 2^54 + 5 coefficients are split as if they had 2^54, with 2^54 + 6 coefficients they are not. *)
Example C37_rounding_examples : rounding_loses (2 ^ 52) /\ rounding_loses (2 ^ 54 + 4) /\ ~ rounding_loses (2 ^ 54 + 5) /\
  f64_ceil_as_usize (f64_sqrt (f64_of_Z (2 ^ 54 + 5))) = (2 ^ 27)%Z /\ f64_ceil_as_usize (f64_sqrt (f64_of_Z (2 ^ 54 + 6))) = (2 ^ 27 + 1)%Z.
Proof.
  split; [exists 26%Z; repeat split; vm_compute; congruence|].
  split; [exists 27%Z; repeat split; vm_compute; congruence|].
  split.
  - intros [k [Hk [H1 H2]]]. assert (Hc : (k = 26 \/ k = 27 \/ 28 <= k)%Z) by lia. destruct Hc as [->|[->|Hc]].
    + vm_compute in H2. discriminate.
    + vm_compute in H2. discriminate.
    + assert (4 ^ 28 <= 4 ^ k)%Z by (apply Z.pow_le_mono_r; lia). assert (2 ^ 54 + 5 + 1 < 4 ^ 28)%Z by reflexivity. lia.
  - vm_compute. split; reflexivity.
Qed.

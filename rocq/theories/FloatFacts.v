(** The floating-point computations: the rounded square root of [bivariate_degrees] (C37) and the f32
    comparison of SIPP (C48).  Integer reasoning only. *)
Require Import List Arith NArith ZArith Lia Bool.
Require Import Coq.Floats.SpecFloat.
Require Import Verif.Outcome Verif.Rust Verif.RustFacts Verif.Floats.
Local Open Scope Z_scope.

(** ** binary digits *)
Lemma digits2_pos_bounds p :
  2 ^ (Zpos (digits2_pos p) - 1) <= Zpos p < 2 ^ Zpos (digits2_pos p).
Proof.
  induction p; cbn [digits2_pos].
  - rewrite Pos2Z.inj_succ. replace (Z.succ (Zpos (digits2_pos p)) - 1) with (Z.succ (Zpos (digits2_pos p) - 1)) by lia.
    rewrite !Z.pow_succ_r by lia. rewrite (Pos2Z.inj_xI p). lia.
  - rewrite Pos2Z.inj_succ. replace (Z.succ (Zpos (digits2_pos p)) - 1) with (Z.succ (Zpos (digits2_pos p) - 1)) by lia.
    rewrite !Z.pow_succ_r by lia. rewrite (Pos2Z.inj_xO p). lia.
  - cbn. lia.
Qed.

Lemma Zdigits2_unique d m : 0 < d -> 2 ^ (d - 1) <= m < 2 ^ d -> Zdigits2 m = d.
Proof.
  intros Hd [H1 H2]. assert (0 < 2 ^ (d - 1)) by (apply Z.pow_pos_nonneg; lia).
  destruct m as [|p|p]; try lia. cbn [Zdigits2].
  pose proof (digits2_pos_bounds p) as [H3 H4].
  assert (d - 1 < Zpos (digits2_pos p)) by (apply (Z.pow_lt_mono_r_iff 2); lia).
  assert (Zpos (digits2_pos p) - 1 < d) by (apply (Z.pow_lt_mono_r_iff 2); lia).
  lia.
Qed.

Lemma Zdigits2_bounds m : 0 < m -> 0 < Zdigits2 m /\ 2 ^ (Zdigits2 m - 1) <= m < 2 ^ Zdigits2 m.
Proof.
  intros H. destruct m as [|p|p]; try lia. cbn [Zdigits2]. split; [lia|]. apply digits2_pos_bounds.
Qed.

Section Norm.
  Variables prec emax : Z.
  Hypothesis Hprec : 1 < prec.
  Hypothesis Hemax : prec + 3 <= emax.

  Lemma shr_fexp_id q e l : 2 ^ (prec - 1) <= q < 2 ^ prec -> emin prec emax <= e ->
    shr_fexp prec emax q e l = (shr_record_of_loc q l, e).
  Proof.
    intros Hq He. unfold shr_fexp. rewrite (Zdigits2_unique prec q) by (lia || auto).
    unfold fexp. replace (Z.max (prec + e - prec) (emin prec emax) - e) with 0 by lia. reflexivity.
  Qed.

  (** rounding a mantissa that already has the full number of digits *)
  Lemma round_aux_norm q e l : 2 ^ (prec - 1) <= q < 2 ^ prec -> emin prec emax <= e -> e + 1 <= emax - prec ->
    binary_round_aux prec emax false q e l =
      let q' := round_nearest_even q l in
      if q' <? 2 ^ prec then S754_finite false (Z.to_pos q') e
      else S754_finite false (Z.to_pos (2 ^ (prec - 1))) (e + 1).
  Proof.
    intros Hq He He'. unfold binary_round_aux. rewrite shr_fexp_id by auto.
    assert (0 < 2 ^ (prec - 1)) by (apply Z.pow_pos_nonneg; lia).
    replace (shr_m (shr_record_of_loc q l)) with q by (destruct l as [|[]]; reflexivity).
    replace (loc_of_shr_record (shr_record_of_loc q l)) with l by (destruct l as [|[]]; reflexivity).
    set (q' := round_nearest_even q l). cbv zeta.
    assert (Hq' : q <= q' <= q + 1) by (unfold q'; destruct l as [|[]]; cbn; try destruct (Z.even q); lia).
    destruct (Z.ltb_spec q' (2 ^ prec)).
    - rewrite shr_fexp_id by (auto; lia). cbn [shr_record_of_loc shr_m].
      destruct q' as [|p|p]; try lia. destruct (Z.leb_spec e (emax - prec)); [reflexivity|lia].
    - assert (E : q' = 2 ^ prec) by lia.
      unfold shr_fexp. rewrite E. rewrite (Zdigits2_unique (prec + 1)).
      2: lia. 2: { replace (prec + 1 - 1) with prec by lia. split; [lia|apply Z.pow_lt_mono_r; lia]. }
      unfold fexp. replace (Z.max (prec + 1 + e - prec) (emin prec emax) - e) with 1 by lia.
      cbn [shr iter_pos shr_record_of_loc].
      replace (2 ^ prec) with (2 * 2 ^ (prec - 1)).
      2:{ rewrite <- Z.pow_succ_r by lia. f_equal. lia. }
      destruct (2 ^ (prec - 1)) as [|p|p] eqn:Ep; try lia. cbn [Z.mul Pos.mul shr_1 shr_m].
      destruct (Z.leb_spec (e + 1) (emax - prec)); [reflexivity|lia].
  Qed.

  Lemma shift_pos_spec d p : Zpos (shift_pos d p) = Zpos p * 2 ^ Zpos d.
  Proof. rewrite shift_pos_correct, Z.pow_pos_fold. ring. Qed.

  (** integers below 2^prec are represented exactly, with a full mantissa *)
  Lemma normalize_exact m : 0 < m < 2 ^ prec ->
    binary_normalize prec emax m 0 false =
      S754_finite false (Z.to_pos (m * 2 ^ (prec - Zdigits2 m))) (Zdigits2 m - prec).
  Proof.
    intros [Hm Hm']. destruct (Zdigits2_bounds m Hm) as [Hd [Hb1 Hb2]].
    assert (Hdp : Zdigits2 m <= prec).
    { enough (Zdigits2 m - 1 < prec) by lia. apply (Z.pow_lt_mono_r_iff 2); lia. }
    destruct m as [|p|p]; try lia. cbn [binary_normalize Zdigits2] in *. unfold binary_round.
    set (d := Zpos (digits2_pos p)) in *.
    assert (Hf : fexp prec emax (d + 0) = d - prec).
    { unfold fexp, emin. rewrite Z.max_l; lia. }
    rewrite Hf.
    assert (Hal : exists mz, shl_align p 0 (d - prec) = (mz, d - prec) /\ Zpos mz = Zpos p * 2 ^ (prec - d)).
    { unfold shl_align. destruct (d - prec - 0) as [|n|n] eqn:En.
      - exists p. split; [f_equal; lia|]. replace (prec - d) with 0 by lia. lia.
      - lia.
      - exists (shift_pos n p). split; [reflexivity|]. rewrite shift_pos_spec. f_equal. f_equal. lia. }
    destruct Hal as [mz [-> Hmz]].
    assert (Hr : 2 ^ (prec - 1) <= Zpos mz < 2 ^ prec).
    { rewrite Hmz. split.
      - replace (prec - 1) with ((d - 1) + (prec - d)) by lia. rewrite Z.pow_add_r by lia.
        apply Z.mul_le_mono_nonneg_r; [apply Z.pow_nonneg; lia|auto].
      - replace (2 ^ prec) with (2 ^ d * 2 ^ (prec - d)) by (rewrite <- Z.pow_add_r by lia; f_equal; lia).
        apply Z.mul_lt_mono_pos_r; [apply Z.pow_pos_nonneg; lia|auto]. }
    rewrite round_aux_norm; auto; [|unfold emin; lia|lia].
    cbn [round_nearest_even]. cbv zeta. destruct (Z.ltb_spec (Zpos mz) (2 ^ prec)); [|lia].
    now rewrite Hmz.
  Qed.
End Norm.

(** ** the square root *)
Definition sqrt_mant (m : Z) : Z * Z :=
  let h := Z.div2 (Zdigits2 m + 1) in (h, m * 4 ^ (53 - h)).

(** the value of the rounded square root: q or q + 1 in units of 2^(h-53) *)
Lemma f64_sqrt_spec m : 0 < m < 2 ^ 53 ->
  let h := Z.div2 (Zdigits2 m + 1) in
  let m' := m * 4 ^ (53 - h) in
  exists q, q * q <= m' < (q + 1) * (q + 1) /\ 1 <= h <= 27 /\
    exists q', (q' = q \/ q' = q + 1 /\ q * q < m') /\
    f64_ceil_as_usize (f64_sqrt (f64_of_Z m)) = (q' + 2 ^ (53 - h) - 1) / 2 ^ (53 - h).
Proof.
  intros Hm h m'. destruct (Zdigits2_bounds m ltac:(lia)) as [Hd [Hb1 Hb2]].
  set (d := Zdigits2 m) in *.
  assert (Hdp : d <= 53).
  { enough (d - 1 < 53) by lia. apply (Z.pow_lt_mono_r_iff 2); lia. }
  assert (Hh : d = 2 * h \/ d = 2 * h - 1).
  { unfold h. pose proof (Z.div2_odd (d + 1)). destruct (Z.odd (d + 1)); cbn [Z.b2z] in *; lia. }
  assert (Hh' : 1 <= h <= 27) by lia.
  unfold f64_of_Z. rewrite normalize_exact by lia. fold d.
  unfold f64_sqrt, SFsqrt, SFsqrt_core_binary.
  assert (Hmp : 2 ^ 52 <= m * 2 ^ (53 - d) < 2 ^ 53).
  { split.
    - replace 52 with ((d - 1) + (53 - d)) by lia. rewrite Z.pow_add_r by lia.
      apply Z.mul_le_mono_nonneg_r; [apply Z.pow_nonneg; lia|auto].
    - replace (2 ^ 53) with (2 ^ d * 2 ^ (53 - d)) by (rewrite <- Z.pow_add_r by lia; f_equal; lia).
      apply Z.mul_lt_mono_pos_r; [apply Z.pow_pos_nonneg; lia|auto]. }
  rewrite Z2Pos.id by lia. rewrite (Zdigits2_unique 53 (m * 2 ^ (53 - d)) eq_refl Hmp).
  replace (53 + (d - 53) + 1) with (d + 1) by lia. fold h.
  assert (He : Z.min (fexp 53 1024 h) (Z.div2 (d - 53)) = h - 53).
  { unfold fexp, emin. rewrite (Z.max_l (h - 53)) by lia.
    rewrite Z.min_l; [reflexivity|]. rewrite Z.div2_div. apply Z.div_le_lower_bound; lia. }
  rewrite He. cbv zeta. 
  assert (Hs : match d - 53 - 2 * (h - 53) with
     | 0 => m * 2 ^ (53 - d) | Zpos _ => Z.shiftl (m * 2 ^ (53 - d)) (d - 53 - 2 * (h - 53))
     | Zneg _ => 0 end = m').
  { assert (Hpos : 0 < d - 53 - 2 * (h - 53)) by lia.
    destruct (d - 53 - 2 * (h - 53)) as [|n|n] eqn:En; try lia. rewrite <- En.
    rewrite Z.shiftl_mul_pow2 by lia. unfold m'. rewrite <- Z.mul_assoc, <- Z.pow_add_r by lia. f_equal.
    change 4 with (2 ^ 2). rewrite <- Z.pow_mul_r by lia. f_equal. lia. }
  rewrite Hs. clear Hs.
  assert (Hm'0 : 0 <= m') by (unfold m'; apply Z.mul_nonneg_nonneg; [lia|apply Z.pow_nonneg; lia]).
  pose proof (Z.sqrtrem_spec m' Hm'0) as Hsq. destruct (Z.sqrtrem m') as [q r]. destruct Hsq as [Hsq Hr].
  assert (Hm'b : 2 ^ 52 * 2 ^ 52 <= m' < 2 ^ 53 * 2 ^ 53).
  { unfold m'. change 4 with (2 ^ 2). rewrite <- Z.pow_mul_r by lia. split.
    - rewrite <- Z.pow_add_r by lia. apply Z.le_trans with (2 ^ (d - 1) * 2 ^ (2 * (53 - h))).
      + rewrite <- Z.pow_add_r by lia. apply Z.pow_le_mono_r; lia.
      + apply Z.mul_le_mono_nonneg_r; [apply Z.pow_nonneg; lia|auto].
    - rewrite <- Z.pow_add_r by lia. apply Z.lt_le_trans with (2 ^ d * 2 ^ (2 * (53 - h))).
      + apply Z.mul_lt_mono_pos_r; [apply Z.pow_pos_nonneg; lia|auto].
      + rewrite <- Z.pow_add_r by lia. apply Z.pow_le_mono_r; lia. }
  assert (Hq0 : 0 <= q) by lia.
  assert (Hq : 2 ^ 52 <= q < 2 ^ 53) by nia.
  exists q. split; [lia|]. split; [exact Hh'|].
  set (l := if Zeq_bool r 0 then loc_Exact else loc_Inexact (if r <=? q then Lt else Gt)).
  exists (round_nearest_even q l). split.
  { unfold l. destruct (Zeq_bool r 0) eqn:Er; [now left|].
    apply Zeq_bool_neq in Er.
    destruct (r <=? q); cbn [round_nearest_even]; [now left|]. right. split; [reflexivity|lia]. }
  rewrite round_aux_norm by (try lia; unfold emin; lia). cbv zeta.
  set (q' := round_nearest_even q l).
  assert (Hq' : q <= q' <= q + 1) by (unfold q'; destruct l as [|[]]; cbn; try destruct (Z.even q); lia).
  assert (Hpw : 0 < 2 ^ (53 - h)) by (apply Z.pow_pos_nonneg; lia).
  destruct (Z.ltb_spec q' (2 ^ 53)).
  - cbn [f64_ceil_as_usize]. destruct (Z.leb_spec 0 (h - 53)); [lia|]. cbv zeta.
    replace (- (h - 53)) with (53 - h) by lia. rewrite Z2Pos.id by lia.
    apply Z.min_l. apply Z.div_le_upper_bound; [lia|].
    assert (2 ^ (53 - h) <= 2 ^ 53) by (apply Z.pow_le_mono_r; lia). nia.
  - assert (Eq : q' = 2 ^ 53) by lia. rewrite Eq.
    cbn [f64_ceil_as_usize]. destruct (Z.leb_spec 0 (h - 53 + 1)); [lia|]. cbv zeta.
    replace (- (h - 53 + 1)) with (52 - h) by lia. rewrite Z2Pos.id by (apply Z.pow_pos_nonneg; lia).
    replace (53 - 1) with (h + (52 - h)) by lia. replace (2 ^ 53) with (2 ^ (h + (53 - h))) by (f_equal; lia).
    rewrite !Z.pow_add_r by lia.
    assert (0 < 2 ^ (52 - h)) by (apply Z.pow_pos_nonneg; lia).
    replace (2 ^ h * 2 ^ (52 - h) + 2 ^ (52 - h) - 1) with (2 ^ (52 - h) - 1 + 2 ^ h * 2 ^ (52 - h)) by ring.
    replace (2 ^ h * 2 ^ (53 - h) + 2 ^ (53 - h) - 1) with (2 ^ (53 - h) - 1 + 2 ^ h * 2 ^ (53 - h)) by ring.
    rewrite !Z.div_add by lia. rewrite !Z.div_small by lia.
    apply Z.min_l. assert (2 ^ h <= 2 ^ 27) by (apply Z.pow_le_mono_r; lia).
    change (0 + 2 ^ h <= 2 ^ 64 - 1). assert (2 ^ 27 < 2 ^ 64 - 1) by reflexivity. lia.
Qed.

Lemma ceil_div_le a b c : 0 < b -> (a + b - 1) / b <= c <-> a <= c * b.
Proof.
  intros Hb. split; intros H.
  - pose proof (Z.mul_succ_div_gt (a + b - 1) b Hb). nia.
  - enough ((a + b - 1) / b < c + 1) by lia. apply Z.div_lt_upper_bound; lia.
Qed.

(** the ceiling of the rounded square root lies between the same powers of two as the true root *)
Lemma f64_sqrt_pow2 m j : 0 <= j <= 26 -> 0 < m <= 2 ^ (2 * j) ->
  f64_ceil_as_usize (f64_sqrt (f64_of_Z m)) <= 2 ^ j /\
  (1 <= j -> 2 ^ (2 * (j - 1)) < m -> 2 ^ (j - 1) < f64_ceil_as_usize (f64_sqrt (f64_of_Z m))).
Proof.
  intros Hj [Hm Hmj].
  assert (H2 : 2 ^ (2 * j) < 2 ^ 53) by (apply Z.pow_lt_mono_r; lia).
  destruct (f64_sqrt_spec m) as [q [Hq [Hh [q' [Hq' ->]]]]]; [lia|].
  destruct (Zdigits2_bounds m Hm) as [Hd [Hb1 Hb2]].
  set (d := Zdigits2 m) in *. set (h := Z.div2 (d + 1)) in *.
  assert (Hhd : d = 2 * h \/ d = 2 * h - 1).
  { unfold h. pose proof (Z.div2_odd (d + 1)). destruct (Z.odd (d + 1)); cbn [Z.b2z] in *; lia. }
  assert (Hw : 0 < 2 ^ (53 - h)) by (apply Z.pow_pos_nonneg; lia).
  assert (H4 : 4 ^ (53 - h) = 2 ^ (53 - h) * 2 ^ (53 - h)).
  { change 4 with (2 * 2). now rewrite Z.pow_mul_l. }
  set (w := 2 ^ (53 - h)) in *. rewrite H4 in *.
  assert (Hq0 : 0 <= q).
  { assert (0 <= m * (w * w)) by nia. nia. }
  assert (HS : 0 < 2 ^ j) by (apply Z.pow_pos_nonneg; lia).
  assert (HSS : 2 ^ (2 * j) = 2 ^ j * 2 ^ j) by (rewrite <- Z.pow_add_r by lia; f_equal; lia).
  split.
  - apply ceil_div_le; [auto|].
    assert (Hu : m * (w * w) <= (2 ^ j * w) * (2 ^ j * w)).
    { replace (2 ^ j * w * (2 ^ j * w)) with (2 ^ (2 * j) * (w * w)) by (rewrite HSS; ring). nia. }
    assert (q <= 2 ^ j * w) by nia.
    destruct Hq' as [->|[-> Hlt]]; [auto|]. nia.
  - intros Hj1 Hm1. apply Z.nle_gt. intros Hc. apply ceil_div_le in Hc; [|auto].
    assert (HT : 2 ^ j = 2 * 2 ^ (j - 1)) by (rewrite <- Z.pow_succ_r by lia; f_equal; lia).
    assert (HTT : 2 ^ (2 * (j - 1)) = 2 ^ (j - 1) * 2 ^ (j - 1)) by (rewrite <- Z.pow_add_r by lia; f_equal; lia).
    set (T := 2 ^ (j - 1)) in *.
    assert (HT0 : 0 < T) by lia.
    assert (Hqq : q <= T * w) by (destruct Hq' as [->|[-> ?]]; lia).
    assert (Hup : m * (w * w) < (T * w + 1) * (T * w + 1)) by nia.
    (* m >= T^2 + 1 *)
    assert (Hup2 : w * w < 2 * (T * w) + 1) by nia.
    assert (Hw2 : w <= 2 * T) by nia.
    rewrite <- HT in Hw2. unfold w in Hw2. apply Z.pow_le_mono_r_iff in Hw2; try lia.
    (* then h >= 27 with j = 26, so m has at least 53 digits *)
    assert (Hd53 : 53 <= d) by lia.
    assert (2 ^ 52 <= m) by (etransitivity; [|apply Hb1]; apply Z.pow_le_mono_r; lia).
    assert (j = 26) as -> by lia. cbn in Hmj. assert (m = 2 ^ 52) as -> by lia.
    unfold T, w in *. assert (h = 27) as Eh by lia. rewrite Eh in Hup. vm_compute in Hup. discriminate.
Qed.

(** ** bivariate_degrees *)
Lemma least_pow4 m : 2 <= m -> exists j, 1 <= j /\ m <= 2 ^ (2 * j) /\ 2 ^ (2 * (j - 1)) < m.
Proof.
  intros Hm. pose proof (Z.log2_up_spec m ltac:(lia)) as [H1 H2].
  pose proof (Z.log2_up_pos m ltac:(lia)) as HL. set (L := Z.log2_up m) in *.
  set (j := Z.div2 (L + 1)).
  assert (Hj : L = 2 * j \/ L = 2 * j - 1).
  { unfold j. pose proof (Z.div2_odd (L + 1)). destruct (Z.odd (L + 1)); cbn [Z.b2z] in *; lia. }
  exists j. split; [lia|]. split.
  - etransitivity; [exact H2|]. apply Z.pow_le_mono_r; lia.
  - eapply Z.le_lt_trans; [|exact H1]. apply Z.pow_le_mono_r; lia.
Qed.

Lemma sqrt_next_pow2 m j : (1 <= j <= 26)%nat -> 0 < m <= 2 ^ (2 * Z.of_nat j) -> 2 ^ (2 * (Z.of_nat j - 1)) < m ->
  next_power_of_two (Z.to_nat (f64_ceil_as_usize (f64_sqrt (f64_of_Z m)))) = (2 ^ j)%nat.
Proof.
  intros Hj Hm Hm'. destruct (f64_sqrt_pow2 m (Z.of_nat j)) as [H1 H2]; [lia|auto|].
  specialize (H2 ltac:(lia) Hm'). set (c := f64_ceil_as_usize _) in *.
  destruct (next_power_of_two_spec (Z.to_nat c)) as [i [-> [Hi1 Hi2]]]. f_equal.
  assert (Hc1 : (Z.to_nat c <= 2 ^ j)%nat).
  { apply Nat2Z.inj_le. rewrite Nat2Z.inj_pow. rewrite Z2Nat.id; [exact H1|].
    assert (0 < 2 ^ (Z.of_nat j - 1)) by (apply Z.pow_pos_nonneg; lia). lia. }
  assert (Hc2 : (2 ^ (j - 1) < Z.to_nat c)%nat).
  { apply Nat2Z.inj_lt. rewrite Nat2Z.inj_pow, Nat2Z.inj_sub by lia. rewrite Z2Nat.id; [exact H2|].
    assert (0 < 2 ^ (Z.of_nat j - 1)) by (apply Z.pow_pos_nonneg; lia). lia. }
  destruct (lt_eq_lt_dec i j) as [[Hlt|]|Hgt]; auto.
  - assert (2 ^ i <= 2 ^ (j - 1))%nat by (apply Nat.pow_le_mono_r; lia). lia.
  - specialize (Hi2 j Hgt). lia.
Qed.

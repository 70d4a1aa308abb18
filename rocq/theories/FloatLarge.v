(** Numbers that are not exactly representable as f64: rounding of [n as f64] and of the square root for all
    n < 2^64, hence the exact behaviour of [bivariate_degrees] (C37). *)
Require Import List Arith NArith ZArith Lia Bool.
Require Import Coq.Floats.SpecFloat.
Require Import Verif.Outcome Verif.Rust Verif.RustFacts Verif.Floats Verif.FloatFacts.
Local Open Scope Z_scope.

Lemma iter_pos_nat {A} (f : A -> A) n x : iter_pos f n x = Nat.iter (Pos.to_nat n) f x.
Proof.
  assert (Hadd : forall a b y, Nat.iter (a + b) f y = Nat.iter a f (Nat.iter b f y)).
  { induction a; intros b y; cbn [Nat.add Nat.iter nat_rect]; [reflexivity|]. unfold Nat.iter in *. cbn. now rewrite IHa. }
  revert x. induction n; intros x; cbn [iter_pos].
  - rewrite !IHn, Pos2Nat.inj_xI. replace (S (2 * Pos.to_nat n))%nat with (Pos.to_nat n + (Pos.to_nat n + 1))%nat by lia.
    rewrite !Hadd. reflexivity.
  - rewrite !IHn, Pos2Nat.inj_xO. replace (2 * Pos.to_nat n)%nat with (Pos.to_nat n + Pos.to_nat n)%nat by lia. now rewrite Hadd.
  - reflexivity.
Qed.

(** position of the remainder r of a division by w *)
Definition loc_rem (r w : Z) : location :=
  if r =? 0 then loc_Exact else loc_Inexact (Z.compare (2 * r) w).

Lemma shr_iter m k : 0 <= m ->
  Nat.iter k shr_1 (shr_record_of_loc m loc_Exact) = shr_record_of_loc (m / 2 ^ Z.of_nat k) (loc_rem (m mod 2 ^ Z.of_nat k) (2 ^ Z.of_nat k)).
Proof.
  intros Hm. induction k as [|k IH].
  - cbn [Nat.iter nat_rect]. rewrite Z.pow_0_r, Z.div_1_r, Z.mod_1_r. reflexivity.
  - change (Nat.iter (S k) shr_1 (shr_record_of_loc m loc_Exact)) with (shr_1 (Nat.iter k shr_1 (shr_record_of_loc m loc_Exact))).
    rewrite IH. clear IH. rewrite Nat2Z.inj_succ, Z.pow_succ_r by lia.
    assert (Hw : 0 < 2 ^ Z.of_nat k) by (apply Z.pow_pos_nonneg; lia). set (w := 2 ^ Z.of_nat k) in *.
    assert (Ha : 0 <= m / w) by (apply Z.div_pos; lia).
    pose proof (Z.mod_pos_bound m w Hw) as Hb. pose proof (Z.div_mod m w ltac:(lia)) as Hdm.
    set (a := m / w) in *. set (b := m mod w) in *.
    rewrite (Z.mul_comm 2 w), <- (Z.div_div m w 2) by lia. rewrite Z.rem_mul_r by lia. fold a b.
    pose proof (Z.div_mod a 2 ltac:(lia)) as Ha2. pose proof (Z.mod_pos_bound a 2 ltac:(lia)) as Hb2.
    set (a' := a / 2) in *. set (c := a mod 2) in *.
    assert (Hs : shr_1 (shr_record_of_loc a (loc_rem b w)) =
      {| shr_m := a'; shr_r := (c =? 1); shr_s := negb (b =? 0) |}).
    { assert (Hr : exists r s, shr_record_of_loc a (loc_rem b w) = {| shr_m := a; shr_r := r; shr_s := s |} /\ (r || s)%bool = negb (b =? 0)).
      { unfold loc_rem. destruct (b =? 0); [do 2 eexists; split; reflexivity|]. destruct (2 * b ?= w); do 2 eexists; split; reflexivity. }
      destruct Hr as [r [s [-> <-]]]. cbn [shr_1]. destruct a as [|p|p]; [|destruct p as [p|p|]|lia].
      - now replace a' with 0 by lia; replace c with 0 by lia.
      - replace a' with (Zpos p) by lia. now replace c with 1 by lia.
      - replace a' with (Zpos p) by lia. now replace c with 0 by lia.
      - replace a' with 0 by lia. now replace c with 1 by lia. }
    rewrite Hs. clear Hs. unfold loc_rem.
    assert (Hc : c = 0 \/ c = 1) by lia. destruct Hc as [->| ->]; cbn [Z.eqb Pos.eqb].
    + rewrite Z.mul_0_r, Z.add_0_r. destruct (Z.eqb_spec b 0) as [->|Hb0]; [reflexivity|].
      destruct (Z.compare_spec (2 * b) (w * 2)); [lia| |lia]. reflexivity.
    + rewrite Z.mul_1_r. destruct (Z.eqb_spec (b + w) 0); [lia|].
      destruct (Z.eqb_spec b 0) as [Hb0|Hb0]; destruct (Z.compare_spec (2 * (b + w)) (w * 2)); try lia; reflexivity.
Qed.

(** quotient rounded to nearest, ties to even *)
Definition rne (m w : Z) : Z := round_nearest_even (m / w) (loc_rem (m mod w) w).

Lemma rne_spec m w : 0 < w -> 0 <= m ->
  (m / w <= rne m w <= m / w + 1) /\ 2 * Z.abs (rne m w * w - m) <= w /\ (2 * Z.abs (rne m w * w - m) = w -> Z.even (rne m w) = true).
Proof.
  intros Hw Hm. unfold rne, loc_rem. pose proof (Z.mod_pos_bound m w Hw). pose proof (Z.div_mod m w ltac:(lia)).
  set (q := m / w) in *. set (r := m mod w) in *.
  destruct (Z.eqb_spec r 0); cbn [round_nearest_even].
  - assert (q * w - m = 0) by lia. rewrite H1. cbn. repeat split; try lia.
  - destruct (Z.compare_spec (2 * r) w).
    + destruct (Z.even q) eqn:Eq.
      * assert (q * w - m = - r) as -> by lia. split; [lia|]. split; [lia|]. auto.
      * assert ((q + 1) * w - m = w - r) as -> by lia. split; [lia|]. split; [lia|]. intros _. rewrite Z.even_add, Eq. reflexivity.
    + assert (q * w - m = - r) as -> by lia. split; [lia|]. split; [lia|]. lia.
    + assert ((q + 1) * w - m = w - r) as -> by lia. split; [lia|]. split; [lia|]. lia.
Qed.

Lemma f64_of_large m : 2 ^ 53 <= m < 2 ^ 64 ->
  let n := Zdigits2 m - 53 in
  1 <= n <= 11 /\ 2 ^ (n + 52) <= m < 2 ^ (n + 53) /\
  f64_of_Z m = (if rne m (2 ^ n) <? 2 ^ 53 then S754_finite false (Z.to_pos (rne m (2 ^ n))) n
                else S754_finite false (Z.to_pos (2 ^ 52)) (n + 1)).
Proof.
  intros [Hm1 Hm2]. destruct (Zdigits2_bounds m ltac:(lia)) as [Hd [Hb1 Hb2]]. set (d := Zdigits2 m) in *. intros n.
  assert (Hd1 : 53 < d) by (apply (Z.pow_lt_mono_r_iff 2); lia).
  assert (Hd2 : d - 1 < 64) by (apply (Z.pow_lt_mono_r_iff 2); lia).
  assert (Hn : 1 <= n <= 11) by lia. split; [exact Hn|].
  split. { unfold n. replace (d - 53 + 52) with (d - 1) by lia. replace (d - 53 + 53) with d by lia. auto. }
  assert (Hw : 0 < 2 ^ n) by (apply Z.pow_pos_nonneg; lia).
  assert (Hq : 2 ^ 52 <= m / 2 ^ n < 2 ^ 53).
  { split.
    - apply Z.div_le_lower_bound; [auto|]. rewrite <- Z.pow_add_r by lia. replace (n + 52) with (d - 1) by lia. auto.
    - apply Z.div_lt_upper_bound; [auto|]. rewrite <- Z.pow_add_r by lia. replace (n + 53) with d by lia. auto. }
  assert (Hnd : d = n + 53) by lia. clearbody n.
  unfold f64_of_Z. destruct m as [|p|p]; try lia. cbn [binary_normalize]. unfold binary_round.
  change (Zpos (digits2_pos p)) with d.
  assert (Hf : fexp 53 1024 (d + 0) = n) by (unfold fexp, emin; rewrite Z.max_l; lia).
  rewrite Hf.
  assert (shl_align p 0 n = (p, 0)) as -> by (unfold shl_align; destruct (n - 0) eqn:E; try lia; reflexivity).
  assert (Hq' : 2 ^ (53 - 1) <= Zpos p / 2 ^ n < 2 ^ 53) by (change (53 - 1) with 52; exact Hq).
  assert (He : emin 53 1024 <= n) by (unfold emin; lia).
  transitivity (binary_round_aux 53 1024 false (Zpos p / 2 ^ n) n (loc_rem (Zpos p mod 2 ^ n) (2 ^ n))).
  - unfold binary_round_aux. rewrite (shr_fexp_id 53 1024 ltac:(lia) _ n _ Hq' He).
    unfold shr_fexp at 1. change (Zdigits2 (Zpos p)) with d. rewrite Hf, Z.sub_0_r.
    assert (Hsh : shr (shr_record_of_loc (Zpos p) loc_Exact) 0 n =
      (shr_record_of_loc (Zpos p / 2 ^ n) (loc_rem (Zpos p mod 2 ^ n) (2 ^ n)), n)).
    { destruct n as [|np|np] eqn:En; try lia. cbn [shr]. rewrite iter_pos_nat, shr_iter by lia. now rewrite positive_nat_Z, Z.add_0_l. }
    rewrite Hsh. reflexivity.
  - rewrite (round_aux_norm 53 1024 ltac:(lia) _ _ _ Hq' He) by lia. reflexivity.
Qed.

(** ** the square root of any double between 1 and 2^64 *)
Lemma f64_sqrt_float M e : 2 ^ 52 <= M < 2 ^ 53 -> -52 <= e <= 12 ->
  let h := Z.div2 (54 + e) in
  let w := 2 ^ (53 - h) in
  let m' := M * 2 ^ (e - 2 * (h - 53)) in
  exists q, q * q <= m' < (q + 1) * (q + 1) /\ 1 <= h <= 33 /\ 0 <= q /\
    f64_ceil_as_usize (f64_sqrt (S754_finite false (Z.to_pos M) e)) = ((if m' <=? q * q + q then q else q + 1) + w - 1) / w.
Proof.
  intros Hmp He h w m'.
  assert (Hh : 54 + e = 2 * h \/ 54 + e = 2 * h + 1).
  { unfold h. pose proof (Z.div2_odd (54 + e)). destruct (Z.odd (54 + e)); cbn [Z.b2z] in *; lia. }
  assert (Hh' : 1 <= h <= 33) by lia.
  unfold f64_sqrt, SFsqrt, SFsqrt_core_binary.
  rewrite Z2Pos.id by lia. rewrite (Zdigits2_unique 53 M eq_refl Hmp).
  replace (53 + e + 1) with (54 + e) by lia. fold h.
  assert (Hee : Z.min (fexp 53 1024 h) (Z.div2 e) = h - 53).
  { unfold fexp, emin. rewrite (Z.max_l (h - 53)) by lia.
    rewrite Z.min_l; [reflexivity|]. rewrite Z.div2_div. apply Z.div_le_lower_bound; lia. }
  rewrite Hee. cbv zeta.
  assert (Hs : match e - 2 * (h - 53) with
     | 0 => M | Zpos _ => Z.shiftl M (e - 2 * (h - 53))
     | Zneg _ => 0 end = m').
  { assert (Hpos : 0 < e - 2 * (h - 53)) by lia.
    destruct (e - 2 * (h - 53)) as [|n|n] eqn:En; try lia. 
    rewrite Z.shiftl_mul_pow2 by lia. unfold m'. reflexivity. }
  rewrite Hs. clear Hs.
  assert (Hm'0 : 0 <= m') by (unfold m'; apply Z.mul_nonneg_nonneg; [lia|apply Z.pow_nonneg; lia]).
  pose proof (Z.sqrtrem_spec m' Hm'0) as Hsq. destruct (Z.sqrtrem m') as [q r]. destruct Hsq as [Hsq Hr].
  assert (Hm'b : 2 ^ 52 * 2 ^ 52 <= m' < 2 ^ 53 * 2 ^ 53).
  { assert (Hx : 52 <= e - 2 * (h - 53) <= 53) by lia.
    assert (2 ^ 52 <= 2 ^ (e - 2 * (h - 53)) <= 2 ^ 53) by (split; apply Z.pow_le_mono_r; lia).
    unfold m'. nia. }
  assert (Hq0 : 0 <= q) by lia.
  assert (Hq : 2 ^ 52 <= q < 2 ^ 53) by nia.
  exists q. split; [lia|]. split; [exact Hh'|]. split; [lia|].
  set (l := if Zeq_bool r 0 then loc_Exact else loc_Inexact (if r <=? q then Lt else Gt)).
  assert (Hl : round_nearest_even q l = if m' <=? q * q + q then q else q + 1).
  { unfold l. destruct (Zeq_bool r 0) eqn:Er.
    - apply Zeq_bool_eq in Er. destruct (Z.leb_spec m' (q * q + q)); [reflexivity|lia].
    - destruct (Z.leb_spec r q); destruct (Z.leb_spec m' (q * q + q)); try lia; reflexivity. }
  rewrite round_aux_norm by (try lia; unfold emin; lia). cbv zeta. rewrite Hl.
  set (q' := if m' <=? q * q + q then q else q + 1).
  assert (Hq' : q <= q' <= q + 1) by (unfold q'; destruct (m' <=? q * q + q); lia).
  assert (Hpw : 0 < w) by (apply Z.pow_pos_nonneg; lia).
  destruct (Z.ltb_spec q' (2 ^ 53)).
  - cbn [f64_ceil_as_usize]. destruct (Z.leb_spec 0 (h - 53)); [lia|]. cbv zeta.
    replace (- (h - 53)) with (53 - h) by lia. rewrite Z2Pos.id by lia. fold w.
    apply Z.min_l. apply Z.div_le_upper_bound; [lia|].
    assert (w <= 2 ^ 53) by (apply Z.pow_le_mono_r; lia). nia.
  - assert (Eq : q' = 2 ^ 53) by lia. rewrite Eq.
    cbn [f64_ceil_as_usize]. destruct (Z.leb_spec 0 (h - 53 + 1)); [lia|]. cbv zeta.
    replace (- (h - 53 + 1)) with (52 - h) by lia. rewrite Z2Pos.id by (apply Z.pow_pos_nonneg; lia).
    unfold w.
    replace (53 - 1) with (h + (52 - h)) by lia. replace (2 ^ 53) with (2 ^ (h + (53 - h))) by (f_equal; lia).
    rewrite !Z.pow_add_r by lia.
    assert (0 < 2 ^ (52 - h)) by (apply Z.pow_pos_nonneg; lia).
    replace (2 ^ h * 2 ^ (52 - h) + 2 ^ (52 - h) - 1) with (2 ^ (52 - h) - 1 + 2 ^ h * 2 ^ (52 - h)) by ring.
    replace (2 ^ h * 2 ^ (53 - h) + 2 ^ (53 - h) - 1) with (2 ^ (53 - h) - 1 + 2 ^ h * 2 ^ (53 - h)) by ring.
    assert (0 < 2 ^ (53 - h)) by (apply Z.pow_pos_nonneg; lia).
    rewrite !Z.div_add by lia. rewrite !Z.div_small by lia.
    apply Z.min_l. assert (2 ^ h <= 2 ^ 33) by (apply Z.pow_le_mono_r; lia).
    change (0 + 2 ^ h <= 2 ^ 64 - 1). assert (2 ^ 33 < 2 ^ 64 - 1) by reflexivity. lia.
Qed.

(** ** rounding to a double around powers of four *)
Lemma f64_of_large_pow4 k m : 26 <= k <= 31 -> 2 ^ (2 * k) < m <= 2 ^ (2 * k + 2) -> m < 2 ^ 64 ->
  exists M e, f64_of_Z m = S754_finite false (Z.to_pos M) e /\ 2 ^ 52 <= M < 2 ^ 53 /\ 0 <= e <= 12 /\
    2 ^ (2 * k) <= M * 2 ^ e <= 2 ^ (2 * k + 2) /\
    (M * 2 ^ e <= 2 ^ (2 * k) + 2 ^ (2 * k - 52) <-> 2 * (m - 2 ^ (2 * k)) < 3 * 2 ^ (2 * k - 52)).
Proof.
  intros Hk Hm H64.
  assert (H52 : 2 ^ 52 <= 2 ^ (2 * k)) by (apply Z.pow_le_mono_r; lia).
  destruct (Z.lt_ge_cases m (2 ^ 53)) as [Hs|Hl].
  - assert (k = 26) as ->.
    { enough (2 * k < 53) by lia. apply (Z.pow_lt_mono_r_iff 2); lia. }
    exists m, 0. unfold f64_of_Z. rewrite normalize_exact by lia.
    rewrite (Zdigits2_unique 53 m) by (try lia; change (53 - 1) with (2 * 26); lia).
    change (53 - 53) with 0. rewrite !Z.pow_0_r, !Z.mul_1_r. split; [reflexivity|].
    change (2 * 26) with 52 in *. split; [lia|]. split; [lia|]. split; [lia|].
    lia.
  - destruct (f64_of_large m) as [Hn [Hb Hf]]; [lia|]. set (n := Zdigits2 m - 53) in *. clearbody n.
    assert (Hn1 : 2 * k < n + 53) by (apply (Z.pow_lt_mono_r_iff 2); lia).
    assert (Hn2 : n + 52 <= 2 * k + 2) by (apply (Z.pow_le_mono_r_iff 2); lia).
    assert (Hw : 0 < 2 ^ n) by (apply Z.pow_pos_nonneg; lia).
    destruct (rne_spec m (2 ^ n) Hw ltac:(lia)) as [Hr1 [Hr2 Hr3]].
    assert (Hq : 2 ^ 52 <= m / 2 ^ n < 2 ^ 53).
    { split.
      - apply Z.div_le_lower_bound; [auto|]. rewrite <- Z.pow_add_r by lia. lia.
      - apply Z.div_lt_upper_bound; [auto|]. rewrite <- Z.pow_add_r by lia. lia. }
    set (M0 := rne m (2 ^ n)) in *. clearbody M0.
    assert (HT : 2 ^ (2 * k) = 2 ^ (2 * k - n) * 2 ^ n) by (rewrite <- Z.pow_add_r by lia; f_equal; lia).
    assert (HT4 : 2 ^ (2 * k + 2) = 2 ^ (2 * k + 2 - n) * 2 ^ n) by (rewrite <- Z.pow_add_r by lia; f_equal; lia).
    assert (Hv : 2 ^ (2 * k) <= M0 * 2 ^ n <= 2 ^ (2 * k + 2) /\
      (M0 * 2 ^ n <= 2 ^ (2 * k) + 2 ^ (2 * k - 52) <-> 2 * (m - 2 ^ (2 * k)) < 3 * 2 ^ (2 * k - 52))).
    { split.
      - rewrite HT, HT4 in *. set (w := 2 ^ n) in *. set (c := 2 ^ (2 * k - n)) in *. set (c4 := 2 ^ (2 * k + 2 - n)) in *.
        assert (2 * (M0 * w - m) <= w /\ 2 * (m - M0 * w) <= w) as [Hu Hd] by lia. clearbody w c c4.
        split; apply Z.mul_le_mono_nonneg_r; try lia; nia.
      - destruct (Z.eq_dec n (2 * k - 52)) as [En|En].
        + assert (E52 : 2 ^ (2 * k) = 2 ^ 52 * 2 ^ n) by (rewrite <- Z.pow_add_r by lia; f_equal; lia).
          rewrite <- En, E52. set (w := 2 ^ n) in *. split.
          * intros Hle. assert (HM : M0 <= 2 ^ 52 + 1) by nia.
            destruct (Z.eq_dec M0 (2 ^ 52)) as [->|Hne]; [lia|].
            assert (M0 = 2 ^ 52 + 1) as -> by lia.
            destruct (Z.eq_dec (2 * Z.abs ((2 ^ 52 + 1) * w - m)) w) as [Eh|Eh]; [specialize (Hr3 Eh); discriminate|]. lia.
          * intros Hlt. assert (M0 * w < (2 ^ 52 + 2) * w) by lia. assert (M0 < 2 ^ 52 + 2) by nia. nia.
        + assert (H2 : 2 * 2 ^ (2 * k) <= 2 ^ 52 * 2 ^ n).
          { rewrite <- Z.pow_succ_r, <- Z.pow_add_r by lia. apply Z.pow_le_mono_r; lia. }
          assert (Hu : 4 * 2 ^ (2 * k - 52) <= 2 ^ (2 * k)).
          { change 4 with (2 ^ 2). rewrite <- Z.pow_add_r by lia. apply Z.pow_le_mono_r; lia. }
          assert (0 < 2 ^ (2 * k - 52)) by (apply Z.pow_pos_nonneg; lia).
          assert (2 ^ 52 * 2 ^ n <= M0 * 2 ^ n) by (apply Z.mul_le_mono_nonneg_r; lia).
          assert (2 ^ 52 * 2 ^ n <= m) by (rewrite <- Z.pow_add_r by lia; replace (52 + n) with (n + 52) by lia; lia).
          lia. }
    destruct Hv as [Hv1 Hv2].
    destruct (Z.ltb_spec M0 (2 ^ 53)) as [Hlt|Hge].
    + exists M0, n. split; [exact Hf|]. split; [lia|]. split; [lia|]. auto.
    + assert (M0 = 2 ^ 53) as -> by lia. exists (2 ^ 52), (n + 1). split; [exact Hf|]. split; [lia|]. split; [lia|].
      rewrite Z.pow_add_r by lia. replace (2 ^ 52 * (2 ^ n * 2 ^ 1)) with (2 ^ 53 * 2 ^ n) by ring. auto.
Qed.

(** The ceiling of the rounded root is above 2^k exactly when m is at least one and a half units in the last place
    above 4^k. *)
Lemma f64_sqrt_large k m : 26 <= k <= 31 -> 2 ^ (2 * k) < m <= 2 ^ (2 * k + 2) -> m < 2 ^ 64 ->
  f64_ceil_as_usize (f64_sqrt (f64_of_Z m)) <= 2 ^ (k + 1) /\
  2 ^ k <= f64_ceil_as_usize (f64_sqrt (f64_of_Z m)) /\
  (f64_ceil_as_usize (f64_sqrt (f64_of_Z m)) <= 2 ^ k <-> 2 * (m - 2 ^ (2 * k)) < 3 * 2 ^ (2 * k - 52)).
Proof.
  intros Hk Hm H64. destruct (f64_of_large_pow4 k m Hk Hm H64) as [M [e [-> [HM [He [Hv Hu]]]]]]. rewrite <- Hu. clear Hu Hm H64 m.
  destruct (f64_sqrt_float M e HM) as [q [Hq [Hh [Hq0 ->]]]]; [lia|].
  set (h := Z.div2 (54 + e)) in *.
  assert (Hhe : 54 + e = 2 * h \/ 54 + e = 2 * h + 1).
  { unfold h. pose proof (Z.div2_odd (54 + e)). destruct (Z.odd (54 + e)); cbn [Z.b2z] in *; lia. }
  clearbody h.
  assert (Hw : 0 < 2 ^ (53 - h)) by (apply Z.pow_pos_nonneg; lia).
  assert (Em : M * 2 ^ (e - 2 * (h - 53)) = M * 2 ^ e * (2 ^ (53 - h) * 2 ^ (53 - h))).
  { rewrite <- Z.mul_assoc, <- !Z.pow_add_r by lia. do 2 f_equal. lia. }
  rewrite Em in *. 
  assert (Hve : 2 ^ (e + 52) <= M * 2 ^ e < 2 ^ (e + 53)).
  { rewrite !Z.pow_add_r by lia. assert (0 < 2 ^ e) by (apply Z.pow_pos_nonneg; lia). nia. }
  set (v := M * 2 ^ e) in *. clearbody v.
  assert (HT : 0 < 2 ^ k) by (apply Z.pow_pos_nonneg; lia).
  assert (HTT : 2 ^ (2 * k) = 2 ^ k * 2 ^ k) by (rewrite <- Z.pow_add_r by lia; f_equal; lia).
  assert (HT4 : 2 ^ (2 * k + 2) = 4 * (2 ^ k * 2 ^ k)) by (rewrite Z.pow_add_r by lia; lia).
  assert (HT2 : 2 ^ (k + 1) = 2 * 2 ^ k) by (rewrite Z.pow_add_r by lia; lia).
  assert (Hiff : forall A, 0 <= A -> ((if v * (2 ^ (53 - h) * 2 ^ (53 - h)) <=? q * q + q then q else q + 1) <= A <->
    v * (2 ^ (53 - h) * 2 ^ (53 - h)) <= A * A + A)).
  { intros A HA. set (m' := v * _) in *. clearbody m'. destruct (Z.leb_spec m' (q * q + q)) as [H|H]; nia. }
  assert (Hlow : 2 ^ k * 2 ^ (53 - h) <= q).
  { assert (v * (2 ^ (53 - h) * 2 ^ (53 - h)) >= (2 ^ k * 2 ^ (53 - h)) * (2 ^ k * 2 ^ (53 - h))) by nia. nia. }
  set (w := 2 ^ (53 - h)) in *. set (q' := if _ <=? _ then _ else _) in *.
  assert (Hqq : q <= q') by (unfold q'; destruct (v * (w * w) <=? q * q + q); lia).
  split; [|split].
  - apply ceil_div_le; [lia|]. rewrite HT2. apply Hiff; [lia|]. set (T := 2 ^ k) in *. nia.
  - apply Z.div_le_lower_bound; [lia|]. lia.
  - rewrite ceil_div_le by lia. rewrite Hiff by lia. set (T := 2 ^ k) in *.
    assert (Hvw : v * (w * w) <= T * w * (T * w) + T * w <-> (v - T * T) * w <= T) by (split; nia).
    rewrite Hvw, HTT. clear Hvw Hiff.
    assert (Hu : 0 < 2 ^ (2 * k - 52)) by (apply Z.pow_pos_nonneg; lia).
    destruct (Z.eq_dec v (4 * (T * T))) as [Ev|Ev].
    + assert (4 * 2 ^ (2 * k - 52) <= 2 ^ (2 * k)).
      { change 4 with (2 ^ 2). rewrite <- Z.pow_add_r by lia. apply Z.pow_le_mono_r; lia. }
      split; intros; nia.
    + assert (e + 52 < 2 * k + 2) by (apply (Z.pow_lt_mono_r_iff 2); lia).
      assert (2 * k < e + 53) by (apply (Z.pow_lt_mono_r_iff 2); lia).
      assert (h = k + 1) by lia.
      assert (Huw : T = 2 ^ (2 * k - 52) * w).
      { unfold T, w. rewrite <- Z.pow_add_r by lia. f_equal. lia. }
      set (u := 2 ^ (2 * k - 52)) in *. clearbody T w u. subst T. split; nia.
Qed.

(** Property C107: the bounds of C101 and C105 in numbers, for digests of at least 32 bytes and the scalar fields of BLS12-381 and
    BLS12-377. *)
Require Import List Arith NArith ZArith Lia Bool Field.
Import ListNotations.
Require Import Verif.Outcome Verif.Algebra Verif.Zp Verif.Rust Verif.InnerProducts Verif.Commitments
  Verif.Gipa Verif.Poly Verif.Tipa Verif.Ssm Verif.Spec Verif.ListFacts Verif.RustFacts Verif.InnerProductFacts Verif.CommitFacts Verif.RootFacts
  Verif.GipaFacts Verif.GipaComplete Verif.GipaTop Verif.PolyFacts Verif.TipaFacts Verif.SsmFacts Verif.GipaAttack Verif.SerFacts Verif.KeyFacts
  Verif.Circuits Verif.CircuitFacts Verif.ZpBig Verif.Pocklington Verif.PrimeFields
  Verif.PropsBase Verif.PropsGipa Verif.PropsTipa Verif.PropsVerify Verif.PropsTipaForge Verif.PropsMalleable
  Verif.PropsForkingTwo Verif.Algebraic Verif.PropsAlgebraic Verif.PropsSearches Verif.Oracle Verif.OracleValues Verif.Rounds Verif.PropsSpecial Verif.PropsGipaOracle
  Verif.PropsSsmOracle Verif.PropsTipaOracle Verif.PropsTipaRounds.

(** ** What is used about a field: its p elements are the integers below p, and from_random_bytes reads the low [bits] bits of the
    first k bytes *)
Definition low (k bits : nat) (d : bytes) : N := (from_le_bytes (firstn k d) mod 2 ^ N.of_nat bits)%N.
Record ark_field (K : field) (p : N) (k bits : nat) : Prop := {
  af_bits : 16 <= k /\ bits <= 8 * k;
  af_size : (2 ^ 128 <= p <= 2 ^ N.of_nat bits)%N;
  af_ints : forall x y, (x < p)%N -> (y < p)%N -> f_ofN (f := K) x = f_ofN y -> x = y;
  af_none : forall d, f_rand (f := K) d = None <-> (p <= low k bits d)%N;
  af_some : forall d d' (z : K), f_rand d = Some z -> f_rand d' = Some z -> low k bits d = low k bits d' }.

Lemma Fp_ark p Hp k bits : 16 <= k -> bits <= 8 * k -> (2 ^ 128 <= p <= 2 ^ Z.of_nat bits)%Z -> ark_field (Fp p Hp k bits) (Z.to_N p) k bits.
Proof.
  intros Hk Hb Hs. assert (Ep : Z.of_N (Z.to_N p) = p) by (apply Z2N.id; lia). constructor.
  - auto.
  - split; apply N2Z.inj_le; rewrite Ep, N2Z.inj_pow; [change (Z.of_N 2 ^ Z.of_N 128)%Z with (2 ^ 128)%Z; lia|].
    rewrite nat_N_Z. change (Z.of_N 2) with 2%Z. lia.
  - intros x y Hx Hy. apply fp_ofN_inj; apply N2Z.inj_lt in Hx; apply N2Z.inj_lt in Hy; lia.
  - intros d. rewrite fp_rand_none. change (low_bits k bits d) with (low k bits d). rewrite N2Z.inj_le, Ep. tauto.
  - intros d d' z E E'. apply fp_rand_some in E. apply fp_rand_some in E'. change (low_bits k bits) with (low k bits) in E, E'. lia.
Qed.

Theorem C107_bls12_381 : ark_field Fr381 (Z.to_N r381) 32 255 /\ prefix_free (@fser Fr381).
Proof.
  assert (H : (2 ^ 128 <=? r381)%Z && (r381 <=? 2 ^ Z.of_nat 255)%Z && (r381 <=? 256 ^ Z.of_nat 32)%Z = true) by (vm_compute; reflexivity).
  rewrite !andb_true_iff, !Z.leb_le in H. destruct H as [[H1 H2] H3].
  split; [apply Fp_ark; [lia|lia|split; assumption]|]. exact (fp_ser_prefix_free r381 prime_r381 32 H3).
Qed.
Print Assumptions C107_bls12_381.
Theorem C107_bls12_377 : ark_field Fr377 (Z.to_N r377) 32 253 /\ prefix_free (@fser Fr377).
Proof.
  assert (H : (2 ^ 128 <=? r377)%Z && (r377 <=? 2 ^ Z.of_nat 253)%Z && (r377 <=? 256 ^ Z.of_nat 32)%Z = true) by (vm_compute; reflexivity).
  rewrite !andb_true_iff, !Z.leb_le in H. destruct H as [[H1 H2] H3].
  split; [apply Fp_ark; [lia|lia|split; assumption]|]. exact (fp_ser_prefix_free r377 prime_r377 32 H3).
Qed.
Print Assumptions C107_bls12_377.

(** ** How many digests have given low bits *)
Lemma from_le_inj b b' : length b = length b' -> is_bytes b -> is_bytes b' -> from_le_bytes b = from_le_bytes b' -> b = b'.
Proof.
  intros Hl Hb Hb' E. apply (f_equal (le_bytes (length b))) in E. rewrite le_from_le in E by auto.
  rewrite le_from_le in E by (auto; lia). rewrite Hl, Nat.sub_diag, !app_nil_r in E. exact E.
Qed.
Lemma byte_strings_bytes n d : In d (byte_strings n) -> length d = n /\ is_bytes d.
Proof. intros H. apply byte_strings_spec in H as [Hl Hx]. split; [exact Hl|]. apply Forall_forall. exact Hx. Qed.
Lemma byte_strings_nodup n : NoDup (byte_strings n).
Proof.
  induction n as [|n IH]; [constructor; [intros []|constructor]|]. cbn [byte_strings].
  assert (Hb : NoDup PropsSearches.all_bytes).
  { unfold PropsSearches.all_bytes. apply FinFun.Injective_map_NoDup; [|apply seq_NoDup]. intros i j E. lia. }
  induction Hb as [|x l Hx Hl IHl]; [constructor|]. cbn [flat_map]. apply Algebraic.nodup_app.
  - apply FinFun.Injective_map_NoDup; [|exact IH]. intros u v E. congruence.
  - exact IHl.
  - intros d Hd Hd'. apply in_map_iff in Hd as (u & <- & _). apply in_flat_map in Hd' as (y & Hy & Hd'). apply in_map_iff in Hd' as (v & E & _).
    apply Hx. congruence.
Qed.

Lemma count_low k bits m (V : list N) (l : list bytes) : bits <= 8 * k -> NoDup l ->
  (forall d, In d l -> In d (byte_strings (k + m)) /\ In (low k bits d) V) ->
  length l <= length V * (2 ^ (8 * k - bits) * 256 ^ m).
Proof.
  intros Hb Hn Hl.
  set (c := 2 ^ (8 * k - bits)).
  assert (Hc : N.of_nat c = (2 ^ N.of_nat (8 * k - bits))%N) by (unfold c; rewrite Nat2N.inj_pow; reflexivity).
  assert (Hcb : (N.of_nat c * 2 ^ N.of_nat bits = 256 ^ N.of_nat k)%N).
  { rewrite Hc, <- N.pow_add_r. change 256%N with (2 ^ 8)%N. rewrite <- N.pow_mul_r. f_equal. lia. }
  set (split := fun d : bytes => (low k bits d, (N.to_nat (from_le_bytes (firstn k d) / 2 ^ N.of_nat bits), skipn k d))).
  replace (length l) with (length (map split l)) by apply map_length.
  replace (length V * (c * 256 ^ m)) with (length (list_prod V (list_prod (seq 0 c) (byte_strings m))))
    by (rewrite !prod_length, seq_length, byte_strings_length; reflexivity).
  assert (Hfirst : forall d, In d l -> length (firstn k d) = k /\ is_bytes (firstn k d) /\ length (skipn k d) = m /\ is_bytes (skipn k d)).
  { intros d Hd. destruct (byte_strings_bytes _ _ (proj1 (Hl d Hd))) as [L B]. rewrite firstn_length, skipn_length.
    rewrite <- (firstn_skipn k d) in B. apply Forall_app in B as [B1 B2]. do 2 (split; [lia || exact B1|]). split; [lia|exact B2]. }
  assert (Hp0 : (2 ^ N.of_nat bits <> 0)%N) by (apply N.pow_nonzero; lia).
  apply NoDup_incl_length.
  - assert (Hi : forall d d', In d l -> In d' l -> split d = split d' -> d = d').
    { intros d d' Hd Hd' E. unfold split in E. apply pair_equal_spec in E as [E1 E]. apply pair_equal_spec in E as [E2 E3].
      rewrite <- (firstn_skipn k d), <- (firstn_skipn k d'), E3. f_equal. unfold low in E1. apply N2Nat.inj in E2.
      destruct (Hfirst d Hd) as (L1 & B1 & _). destruct (Hfirst d' Hd') as (L2 & B2 & _).
      apply from_le_inj; [congruence|exact B1|exact B2|].
      rewrite (N.div_mod (from_le_bytes (firstn k d)) _ Hp0), (N.div_mod (from_le_bytes (firstn k d')) _ Hp0), E1, E2. reflexivity. }
    clear - Hn Hi. induction l as [|d l IH]; cbn [map]; [constructor|]. inversion Hn as [|? ? Hd Hn']; subst. constructor.
    + intros H. apply in_map_iff in H as [d' [E Hd']]. apply Hd. rewrite <- (Hi d' d); auto; [now right|now left].
    + apply IH; [exact Hn'|]. intros e e' He He'. apply Hi; now right.
  - intros s Hs. apply in_map_iff in Hs as [d [<- Hd]]. destruct (Hfirst d Hd) as (L1 & B1 & L2 & B2). unfold split.
    apply in_prod; [apply (Hl d Hd)|]. apply in_prod.
    + apply in_seq. pose proof (from_le_lt _ B1) as Hlt. rewrite L1, <- Hcb in Hlt.
      rewrite N.mul_comm in Hlt. pose proof (N.div_lt_upper_bound _ _ _ Hp0 Hlt) as Hd'. revert Hd'.
      generalize (from_le_bytes (firstn k d) / 2 ^ N.of_nat bits)%N. clearbody c. clear. intros u Hu. lia.
    + apply byte_strings_spec. split; [exact L2|]. apply Forall_forall. exact B2.
Qed.

(** among the digests of [len] bytes: each challenge from the first 16 bytes, and each element that from_random_bytes gives *)
Theorem C107_spread K p k bits len : ark_field K p k bits -> k <= len ->
  challenges_spread K (byte_strings len) (256 ^ (len - 16)) /\
  points_spread K (byte_strings len) (2 ^ (8 * k - bits) * 256 ^ (len - k)).
Proof.
  intros [[Hk Hb] Hs Hi _ Hsome] Hlen. split.
  - apply C101_spread.
    + intros x y Hx Hy. apply Hi; lia.
    + intros d Hd. apply byte_strings_bytes in Hd as [L B]. split; [lia|exact B].
  - intros z l Hn Hl. destruct l as [|d0 l]; [cbn; lia|]. rewrite <- (Nat.mul_1_l (_ * _)).
    apply (count_low k bits (len - k) [low k bits d0]); [exact Hb|exact Hn|]. intros d Hd. destruct (Hl d Hd) as [Ho E].
    split; [replace (k + (len - k)) with len by lia; exact Ho|]. left. apply (Hsome d0 d z); [|exact E]. apply (Hl d0). now left.
Qed.
Print Assumptions C107_spread.

(** ** The bounds *)
Lemma of_nat_pow a b : N.of_nat (a ^ b) = (N.of_nat a ^ N.of_nat b)%N.
Proof. apply Nat2N.inj_pow. Qed.
Lemma level_arith (l s M c A : nat) Q : (N.of_nat s * 2 ^ N.of_nat c = N.of_nat M)%N -> l <= s * A * Q * M ^ (Q - 1) ->
  (N.of_nat l * 2 ^ N.of_nat c <= N.of_nat (A * Q) * N.of_nat M ^ N.of_nat Q)%N.
Proof.
  intros Hs H. destruct Q as [|q]; [rewrite Nat.mul_0_r in H; cbn in H; assert (l = 0) as -> by lia; lia|].
  replace (S q - 1) with q in H by lia. assert (HN : (N.of_nat l <= N.of_nat (s * A * S q * M ^ q))%N) by lia.
  rewrite Nat2N.inj_mul, of_nat_pow in HN.
  replace (N.of_nat (s * A * S q)) with (N.of_nat s * N.of_nat (A * S q))%N in HN by lia.
  assert (HM : (N.of_nat M ^ N.of_nat (S q) = N.of_nat M * N.of_nat M ^ N.of_nat q)%N) by now rewrite Nat2N.inj_succ, N.pow_succ_r'.
  rewrite HM. apply (N.mul_le_mono_r _ _ (2 ^ N.of_nat c)) in HN. etransitivity; [exact HN|].
  revert Hs. generalize (2 ^ N.of_nat c)%N (N.of_nat M ^ N.of_nat q)%N. intros x z <-. apply N.eq_le_incl. ring.
Qed.

(** GIPA: of the sequences of Q answers of a random function with digests of [len] bytes, a share of at most (2 Q + 2) Q / 2^128
    makes the prover succeed *)
Theorem C107_gipa {R} {K : field} {MA MB MT KA KB XA XB : module K}
    (LMC : dhc R MA KA (mod_carrier XA)) (RMC : dhc R MB KB (mod_carrier XB)) (ip : list MA -> list MB -> res MT) p k bits len :
  oracle_sound LMC RMC ip -> ark_field K p k bits -> k <= len ->
  forall fuel ka kb kt ca cb (ct : list MT) a b, length a = length ka -> length b = length kb ->
  dh_commit LMC ka a = Ok ca -> dh_commit RMC kb b = Ok cb -> ip a b <> Ok (at_ ct 0) ->
  forall ask know out, knows_openings LMC RMC (MT := MT) ka kb ask know ->
  prefix_free (@fser K) -> prefix_free (@mser K XA) -> prefix_free (@mser K XB) -> prefix_free (@mser K MT) ->
  forall Q L, NoDup L ->
  (forall w, In w L -> length w = Q /\ incl w (byte_strings len) /\ gipa_fools LMC RMC ip fuel ka kb kt ca cb ct a b ask know out w) ->
  (N.of_nat (length L) * 2 ^ 128 <= N.of_nat ((2 * Q + 2) * Q) * N.of_nat (length (byte_strings len)) ^ N.of_nat Q)%N.
Proof.
  intros HO HK Hlen fuel ka kb kt ca cb ct a b Ha Hb Ea Eb Hf ask know out Hkn FF FA FB FT Q L NL HL.
  destruct (C107_spread K p k bits len HK Hlen) as [Hc _]. destruct HK as [[Hk _] _ _ _ _].
  apply (level_arith _ (256 ^ (len - 16)) _ 128).
  - rewrite byte_strings_length, !of_nat_pow. change (2 ^ N.of_nat 128)%N with (256 ^ 16)%N. change (N.of_nat 256) with 256%N.
    rewrite <- N.pow_add_r. f_equal. lia.
  - exact (HO fuel ka kb kt ca cb ct a b Ha Hb Ea Eb Hf ask know out Hkn _ _ (byte_strings_nodup len) Hc FF FA FB FT Q L NL HL).
Qed.
Print Assumptions C107_gipa.

Lemma level_arith2 (l s g M bits A B : nat) Q : 128 <= bits -> (N.of_nat s * 2 ^ 128 = N.of_nat M)%N -> (N.of_nat g * 2 ^ N.of_nat bits = N.of_nat M)%N ->
  l <= (s * A + g * B) * Q * M ^ (Q - 1) ->
  (N.of_nat l * 2 ^ N.of_nat bits <= (2 ^ N.of_nat (bits - 128) * N.of_nat A + N.of_nat B) * N.of_nat Q * N.of_nat M ^ N.of_nat Q)%N.
Proof.
  intros Hbits Hs Hg H. destruct Q as [|q]; [rewrite Nat.mul_0_r in H; cbn in H; assert (l = 0) as -> by lia; lia|].
  replace (S q - 1) with q in H by lia. assert (HN : (N.of_nat l <= N.of_nat ((s * A + g * B) * S q * M ^ q))%N) by lia.
  rewrite Nat2N.inj_mul, of_nat_pow in HN.
  assert (HM : (N.of_nat M ^ N.of_nat (S q) = N.of_nat M * N.of_nat M ^ N.of_nat q)%N) by now rewrite Nat2N.inj_succ, N.pow_succ_r'.
  rewrite HM.
  replace (N.of_nat ((s * A + g * B) * S q)) with ((N.of_nat s * N.of_nat A + N.of_nat g * N.of_nat B) * N.of_nat (S q))%N in HN by lia.
  apply (N.mul_le_mono_r _ _ (2 ^ N.of_nat bits)) in HN. etransitivity; [exact HN|]. clear HN H.
  assert (Hs' : (N.of_nat s * 2 ^ N.of_nat bits = 2 ^ N.of_nat (bits - 128) * N.of_nat M)%N).
  { replace (N.of_nat bits) with (128 + N.of_nat (bits - 128))%N by lia. rewrite N.pow_add_r, N.mul_assoc, Hs. apply N.mul_comm. }
  revert Hs' Hg. generalize (2 ^ N.of_nat bits)%N (2 ^ N.of_nat (bits - 128))%N (N.of_nat M ^ N.of_nat q)%N. intros x y z Hs' Hg.
  apply N.eq_le_incl.
  transitivity ((N.of_nat s * x * N.of_nat A + N.of_nat g * x * N.of_nat B) * N.of_nat (S q) * z)%N; [ring|]. rewrite Hs', Hg. ring.
Qed.

(** TIPA: a share of at most ((3 Q + 3 log2 n) / 2^128 + (2 N - 2) / 2^bits) Q *)
Theorem C107_tipa {R} {P : pairing} {MA MB MT XA XB : module (pK P)}
    (LMC : dhc R MA (pG2 P) (mod_carrier XA)) (RMC : dhc R MB (pG1 P) (mod_carrier XB)) (ip : list MA -> list MB -> res MT) p k bits len :
  tipa_any_rounds_sound LMC RMC ip -> ark_field (pK P) p k bits -> k <= len -> pr_g P <> m0 -> pr_h P <> m0 ->
  forall fuel (rand : sampler R (pK P)) rng n s kt0 rng' ka kb v,
  tipa_setup (identity MT) rand rng n = Ok (s, kt0, rng') -> get_commitment_keys s = (ka, kb) -> get_verifier_key s = Ok v ->
  forall r kt ca cb (ct : list MT) a b, length a = n -> length b = n ->
  dh_commit LMC (shift_vec (finv r) ka) a = Ok ca -> dh_commit RMC kb b = Ok cb -> ip a b <> Ok (at_ ct 0) ->
  forall ask know keys out opening, knows_openings LMC RMC (MT := MT) (shift_vec (finv r) ka) kb ask know -> knows_keys s ask keys out opening ->
  prefix_free (@fser (pK P)) -> prefix_free (@mser _ XA) -> prefix_free (@mser _ XB) -> prefix_free (@mser _ MT) ->
  prefix_free (@mser _ (pG1 P)) -> prefix_free (@mser _ (pG2 P)) ->
  forall N Q L, n <= N -> NoDup L ->
  (forall w, In w L -> length w = Q /\ incl w (byte_strings len) /\
     tipa_fools_any LMC RMC ip fuel (fst (rand rng)) (fst (rand (snd (rand rng)))) n N ka kb r kt ca cb ct a b ask know keys out opening v w) ->
  (N.of_nat (length L) * 2 ^ N.of_nat bits <=
     (2 ^ N.of_nat (bits - 128) * N.of_nat (3 * Q + 3 * Nat.log2 n) + N.of_nat (2 * N - 2)) * N.of_nat Q * N.of_nat (length (byte_strings len)) ^ N.of_nat Q)%N.
Proof.
  intros HO HK Hlen Hg Hh fuel rand rng n s kt0 rng' ka kb v Hset Hkeys Hv r kt ca cb ct a b Ha Hb Ea Eb Hf ask know keys out opening Hkn Hkk
    FF FA FB FT F1 F2 N Q L HN NL HL.
  destruct (C107_spread (pK P) p k bits len HK Hlen) as [Hc Hp]. destruct HK as [[Hk Hbk] Hsz _ _ _].
  assert (Hbits : 128 <= bits).
  { destruct (le_lt_dec 128 bits) as [H|H]; [exact H|]. exfalso. assert (2 ^ N.of_nat bits < 2 ^ 128)%N by (apply N.pow_lt_mono_r; lia). lia. }
  apply (level_arith2 _ (256 ^ (len - 16)) (2 ^ (8 * k - bits) * 256 ^ (len - k))); [exact Hbits| | |].
  - rewrite byte_strings_length, !of_nat_pow. change (2 ^ 128)%N with (256 ^ 16)%N. change (N.of_nat 256) with 256%N.
    rewrite <- N.pow_add_r. f_equal. lia.
  - rewrite byte_strings_length, Nat2N.inj_mul, !of_nat_pow. change (N.of_nat 2) with 2%N. change (N.of_nat 256) with 256%N.
    rewrite N.mul_comm, N.mul_assoc, <- N.pow_add_r. change 256%N with (2 ^ 8)%N. rewrite <- !N.pow_mul_r, <- N.pow_add_r. f_equal. lia.
  - exact (HO Hg Hh fuel rand rng n s kt0 rng' ka kb v Hset Hkeys Hv r kt ca cb ct a b Ha Hb Ea Eb Hf ask know keys out opening Hkn Hkk
      _ _ _ (byte_strings_nodup len) Hc Hp FF FA FB FT F1 F2 N Q L HN NL HL).
Qed.
Print Assumptions C107_tipa.

(** ** The schemes over BLS12-381 and BLS12-377: with at most 2^40 queries and vectors of at most 2^40 elements (proofs of at most
    2^40 elements), a prover succeeds for at most a share of 2^-45 of the hash functions *)
Lemma level45 (l W : N) (bits Q n N : nat) : 128 <= bits -> n <= N -> (N.of_nat Q <= 2 ^ 40)%N -> (N.of_nat N <= 2 ^ 40)%N ->
  (l * 2 ^ N.of_nat bits <= (2 ^ N.of_nat (bits - 128) * N.of_nat (3 * Q + 3 * Nat.log2 n) + N.of_nat (2 * N - 2)) * N.of_nat Q * W)%N ->
  (l * 2 ^ 45 <= W)%N.
Proof.
  intros Hb Hn HQ HN H.
  assert (Hlog : Nat.log2 n <= N) by (pose proof (Nat.log2_le_lin n); lia).
  replace (N.of_nat bits) with (N.of_nat (bits - 128) + 128)%N in H by lia. rewrite N.pow_add_r in H.
  assert (Hc : (1 <= 2 ^ N.of_nat (bits - 128))%N).
  { pose proof (N.pow_nonzero 2 (N.of_nat (bits - 128)) ltac:(lia)). lia. }
  revert H Hc. generalize (2 ^ N.of_nat (bits - 128))%N. intros c H Hc.
  set (A := N.of_nat (3 * Q + 3 * Nat.log2 n)) in *. assert (HA : (A <= 6 * 2 ^ 40)%N) by (unfold A; lia). clearbody A.
  set (B := N.of_nat (2 * N - 2)) in *. assert (HB : (B <= 2 * 2 ^ 40)%N) by (unfold B; lia). clearbody B.
  assert (H1 : ((c * A + B) * N.of_nat Q <= c * 2 ^ 43 * 2 ^ 40)%N).
  { apply N.mul_le_mono; [|exact HQ]. transitivity (c * (6 * 2 ^ 40) + c * (2 * 2 ^ 40))%N.
    - apply N.add_le_mono; [apply N.mul_le_mono_l; exact HA|]. transitivity (1 * (2 * 2 ^ 40))%N; [lia|]. apply N.mul_le_mono_r. exact Hc.
    - lia. }
  apply (N.mul_le_mono_r _ _ W) in H1. assert (H2 : (l * (c * 2 ^ 128) <= c * 2 ^ 43 * 2 ^ 40 * W)%N) by (etransitivity; [exact H|exact H1]).
  apply (N.mul_le_mono_pos_l _ _ (c * 2 ^ 83)%N); [lia|]. etransitivity; [|etransitivity; [exact H2|]]; apply N.eq_le_incl.
  - change (2 ^ 128)%N with (2 ^ 83 * 2 ^ 45)%N. ring.
  - change (2 ^ 83)%N with (2 ^ 43 * 2 ^ 40)%N. ring.
Qed.

Definition tipa_level {R} {P : pairing} {MA MB MT XA XB : module (pK P)}
    (LMC : dhc R MA (pG2 P) (mod_carrier XA)) (RMC : dhc R MB (pG1 P) (mod_carrier XB)) (ip : list MA -> list MB -> res MT) (len : nat) : Prop :=
  pr_g P <> m0 -> pr_h P <> m0 ->
  forall fuel (rand : sampler R (pK P)) rng n s kt0 rng' ka kb v,
  tipa_setup (identity MT) rand rng n = Ok (s, kt0, rng') -> get_commitment_keys s = (ka, kb) -> get_verifier_key s = Ok v ->
  forall r kt ca cb (ct : list MT) a b, length a = n -> length b = n ->
  dh_commit LMC (shift_vec (finv r) ka) a = Ok ca -> dh_commit RMC kb b = Ok cb -> ip a b <> Ok (at_ ct 0) ->
  forall ask know keys out opening, knows_openings LMC RMC (MT := MT) (shift_vec (finv r) ka) kb ask know -> knows_keys s ask keys out opening ->
  prefix_free (@mser _ XA) -> prefix_free (@mser _ XB) -> prefix_free (@mser _ MT) ->
  prefix_free (@mser _ (pG1 P)) -> prefix_free (@mser _ (pG2 P)) ->
  forall N Q L, n <= N -> (N.of_nat N <= 2 ^ 40)%N -> (N.of_nat Q <= 2 ^ 40)%N -> NoDup L ->
  (forall w, In w L -> length w = Q /\ incl w (byte_strings len) /\
     tipa_fools_any LMC RMC ip fuel (fst (rand rng)) (fst (rand (snd (rand rng)))) n N ka kb r kt ca cb ct a b ask know keys out opening v w) ->
  (N.of_nat (length L) * 2 ^ 45 <= N.of_nat (length (byte_strings len)) ^ N.of_nat Q)%N.

Lemma tipa_level_of {R} {P : pairing} {MA MB MT XA XB : module (pK P)}
    (LMC : dhc R MA (pG2 P) (mod_carrier XA)) (RMC : dhc R MB (pG1 P) (mod_carrier XB)) (ip : list MA -> list MB -> res MT) len :
  pK P = Fr381 \/ pK P = Fr377 -> 32 <= len -> tipa_any_rounds_sound LMC RMC ip -> tipa_level LMC RMC ip len.
Proof.
  intros HP Hlen HO.
  assert (HK : exists p bits, 128 <= bits /\ ark_field (pK P) p 32 bits /\ prefix_free (@fser (pK P))).
  { destruct HP as [-> | ->].
    - exists (Z.to_N r381), 255. split; [lia|exact C107_bls12_381].
    - exists (Z.to_N r377), 253. split; [lia|exact C107_bls12_377]. }
  destruct HK as (p & bits & Hb & HK & FF).
  intros Hg Hh fuel rand rng n s kt0 rng' ka kb v Hset Hkeys Hv r kt ca cb ct a b Ha Hb' Ea Eb Hf ask know keys out opening Hkn Hkk
    FA FB FT F1 F2 N Q L HN HN40 HQ40 NL HL.
  apply (level45 _ _ bits Q n N Hb HN HQ40 HN40).
  exact (C107_tipa LMC RMC ip p 32 bits len HO HK Hlen Hg Hh fuel rand rng n s kt0 rng' ka kb v Hset Hkeys Hv r kt ca cb ct a b Ha Hb' Ea Eb Hf
    ask know keys out opening Hkn Hkk FF FA FB FT F1 F2 N Q L HN NL HL).
Qed.

Theorem C107_bls_pairing R (P : pairing) (E : penv) (r1 : sampler R (pG1 P)) (r2 : sampler R (pG2 P)) len :
  pK P = Fr381 \/ pK P = Fr377 -> 32 <= len -> 1 <= threads E -> tipa_level (afgho_g1 P E r2) (afgho_g2 P E r1) (pairing_ip P E) len.
Proof. intros HP Hl HE. apply tipa_level_of; auto. apply C105_pairing. exact HE. Qed.
Print Assumptions C107_bls_pairing.
Theorem C107_bls_multiexp R (P : pairing) (E : penv) (r1 : sampler R (pG1 P)) (r2 : sampler R (pG2 P)) len :
  pK P = Fr381 \/ pK P = Fr377 -> 32 <= len -> 1 <= threads E -> tipa_level (afgho_g1 P E r2) (pedersen (pG1 P) r1) (multiexp_ip (pG1 P)) len.
Proof. intros HP Hl HE. apply tipa_level_of; auto. apply C105_multiexp. exact HE. Qed.
Print Assumptions C107_bls_multiexp.
Theorem C107_bls_scalar R (P : pairing) (E : penv) (r1 : sampler R (pG1 P)) (r2 : sampler R (pG2 P)) len :
  pK P = Fr381 \/ pK P = Fr377 -> 32 <= len ->
  tipa_level (pedersen (pG2 P) r2) (pedersen (pG1 P) r1) (scalar_ip (K := pK P) E : list (fmod (pK P)) -> list (fmod (pK P)) -> res (fmod (pK P))) len.
Proof. intros HP Hl. apply tipa_level_of; auto. apply C105_scalar. Qed.
Print Assumptions C107_bls_scalar.

(** ** Example: the scalar field of BLS12-381 and digests of 64 bytes (Blake2b).  The SRS with trapdoors 2 and 3, the vectors (2, 3) and
    (5, 7), whose inner product is 31, and the claim 32: the prover of the example of C103, lucky if the first 16 bytes of the first
    digest are the number 1; it then opens its keys at the point that the digest gives, 2^120. *)
Notation M381 := (fmod Fr381).
Definition fq (z : Z) : Fr381 := zm_of r381 z.
Definition fl (l : list Z) : list M381 := map fq l.
Definition ex107_rand : sampler Z M381 := fun n => (fq n, (n + 1)%Z).
Definition ex107_digest : bytes := repeat 0%N 15 ++ [1%N] ++ repeat 0%N 48.
Definition ex107_w : list bytes := [ex107_digest; ex107_digest].
Definition ex107_z : Z := (2 ^ 120)%Z.
Definition ex107_c1 : com3 (mod_carrier M381) (mod_carrier M381) (identity_output M381) := (fq 3, fq 20, [fq 14]).
Definition ex107_c2 : com3 (mod_carrier M381) (mod_carrier M381) (identity_output M381) := (fq 18, fq 7, [fq 14]).
Definition ex107_ask (w : list bytes) : bytes :=
  match w with [] => gipa_hash_input 0 (f0 : Fr381) ex107_c1 ex107_c2 | _ => point_input (P := P381) 0 (f1 : Fr381) (fq 10, fq 5) end.
Definition ex107_know (w : list bytes) : (list M381 * list M381) * (list M381 * list M381) :=
  ((fl [3; 0]%Z, fl [0; 2]%Z), (fl [0; 5]%Z, fl [7; 0]%Z)).
Definition ex107_key : comb P381 := ([fq 1; fq 0; fq 1], fq 0).
Definition ex107_keys (w : list bytes) : comb P381 * comb P381 := (ex107_key, ex107_key).
Definition ex107_quot : comb P381 := ([fq ex107_z; fq 1], fq 0).
Definition ex107_opening (w : list bytes) : comb P381 * comb P381 := (ex107_quot, ex107_quot).
Definition ex107_out (w : list bytes) : tipa_proof P381 M381 M381 (mod_carrier M381) (mod_carrier M381) (identity_output M381) :=
  mk_tipa_proof (P := P381) (mk_gipa_proof (K := Fr381) (MA := M381) (MB := M381) [(ex107_c1, ex107_c2)] (fq 5, fq 12)) (fq 10, fq 5)
    (fq (3 + ex107_z), fq (2 + ex107_z)).
Definition ex107_vsrs : vsrs P381 := mk_vsrs (P := P381) (fq 1) (fq 1) (fq 3) (fq 2).
Definition ex107_s : srs P381 := mk_srs (P := P381) (fl [1; 2; 4]%Z) (fl [1; 3; 9]%Z) (fq 3) (fq 2).
Notation ex107_L := (afgho_g1 P381 ex_env1 ex107_rand).
Notation ex107_R := (afgho_g2 P381 ex_env1 ex107_rand).

Example C107_example_digest : In ex107_digest (byte_strings 64) /\ challenge_of (K := Fr381) ex107_digest = fq 1 /\ f_rand (f := Fr381) ex107_digest = Some (fq ex107_z).
Proof.
  split; [|split; reflexivity]. apply byte_strings_spec. split; [reflexivity|]. intros x Hx.
  assert (H : forallb (fun x => (x <? 256)%N) ex107_digest = true) by reflexivity. rewrite forallb_forall in H. apply N.ltb_lt, H, Hx.
Qed.
Example C107_example_fools :
  tipa_fools_any (P := P381) ex107_L ex107_R (pairing_ip P381 ex_env1) 5 (fq 2) (fq 3) 2 2
    (fl [1; 9]%Z) (fl [1; 4]%Z) (fq 1) tt (fq 29) (fq 33) [fq 32] (fl [2; 3]%Z) (fl [5; 7]%Z) ex107_ask ex107_know ex107_keys ex107_out ex107_opening
    ex107_vsrs ex107_w.
Proof.
  exists (fun _ => ex107_digest). split; [intros q; cbn; lia|].
  split; [intros [|[|t]] Ht; [reflexivity|reflexivity|cbn in Ht; lia]|].
  split; [repeat constructor|]. split; [cbn; lia|]. split; [reflexivity|]. split; [|split].
  - intros q [Hq|(cs & Hc & n & Hn & Hno & ->)].
    + exists 0. split; [cbn; lia|].
      inversion Hq as [prev s steps n Hn Hno|prev s steps n v q' Hn Hv Hq']; subst.
      * destruct n as [|n]; [reflexivity|]. specialize (Hno 0 ltac:(lia)). discriminate.
      * inversion Hq'.
    + exists 1. split; [cbn; lia|]. destruct n as [|n]; [|specialize (Hno 0 ltac:(lia)); discriminate].
      assert (Hc' : round_challenges (K := Fr381) (fun _ => ex107_digest) 5 (f0 : Fr381) (rev (gp_steps (tp_gipa (ex107_out ex107_w)))) [fq 1]).
      { cbn [round_challenges rev app gp_steps tp_gipa ex107_out]. split; [|exact I]. exists 0, (fq 1). split; [lia|]. split; [|reflexivity].
        split; [reflexivity|intros i Hi; lia]. }
      assert (cs = [fq 1]) as ->; [|reflexivity].
      eapply round_challenges_fun; [|exact Hc'|exact Hc]. intros q. cbn. lia.
  - unfold collision_found_any.
    match goal with |- context [match ?x with _ => _ end] =>
      assert (E : x = Some ((fl [5; 5]%Z, fl [5; 5]%Z), (fl [12; 12]%Z, fl [12; 12]%Z))) by reflexivity end.
    rewrite E. intros [[H _]|[H _]]; now apply H.
  - unfold relation_found. match goal with |- context [match ?x with _ => _ end] => assert (E : x = None) by reflexivity end. rewrite E. auto.
Qed.
Lemma ex107_lengths n p (s : com3 (mod_carrier M381) (mod_carrier M381) (identity_output M381) * com3 (mod_carrier M381) (mod_carrier M381) (identity_output M381)) m c ck :
  ok_round s -> gipa_hash_input n (p : Fr381) (fst s) (snd s) <> point_input (P := P381) m c ck.
Proof.
  intros [H1 H2] E. apply (f_equal (@length N)) in E. destruct s as [[[a1 b1] t1] [[a2 b2] t2]]. unfold point_input, gipa_hash_input in E. cbn [fst snd] in E.
  assert (Hl : forall a : Fr381, length (fser a) = 32) by (intros a; apply le_bytes_length).
  rewrite !app_length, !usize_be_length in E.
  change (@mser (pK P381) (pG1 P381)) with (@fser Fr381) in E. change (@mser (pK P381) (pG2 P381)) with (@fser Fr381) in E.
  change (@cser Fr381 (mod_carrier M381)) with (@fser Fr381) in E. rewrite !Hl in E. lia.
Qed.
Example C107_example_hypotheses :
  pr_g P381 <> m0 /\ pr_h P381 <> m0 /\ pK P381 = Fr381 /\
  tipa_setup (P := P381) (identity M381) ex107_rand 2%Z 2 = Ok (ex107_s, tt, 4%Z) /\ get_commitment_keys ex107_s = (fl [1; 9]%Z, fl [1; 4]%Z) /\
  get_verifier_key ex107_s = Ok ex107_vsrs /\ shift_vec (finv (f1 : Fr381)) (fl [1; 9]%Z : list (pG2 P381)) = fl [1; 9]%Z /\
  dh_commit ex107_L (fl [1; 9]%Z) (fl [2; 3]%Z) = Ok (fq 29) /\ dh_commit ex107_R (fl [1; 4]%Z) (fl [5; 7]%Z) = Ok (fq 33) /\
  pairing_ip P381 ex_env1 (fl [2; 3]%Z) (fl [5; 7]%Z) <> Ok (fq 32) /\
  knows_openings ex107_L ex107_R (MT := M381) (fl [1; 9]%Z) (fl [1; 4]%Z) ex107_ask ex107_know /\
  knows_keys (P := P381) (MA := M381) (MB := M381) (MT := M381) (XA := M381) (XB := M381) ex107_s ex107_ask ex107_keys ex107_out ex107_opening.
Proof.
  assert (F : prefix_free (@fser Fr381)) by apply C107_bls12_381.
  assert (G : prefix_free (@mser Fr381 M381)) by exact F.
  assert (Hne : fq 1 <> fq 0) by (intros E; apply (f_equal (zm_val r381)) in E; discriminate E).
  split; [exact Hne|]. split; [exact Hne|]. do 7 (split; [reflexivity|]). split.
  { assert (E : pairing_ip P381 ex_env1 (fl [2; 3]%Z) (fl [5; 7]%Z) = Ok (fq 31)) by reflexivity. rewrite E. intros H.
    assert (E' : fq 31 = fq 32) by congruence. apply (f_equal (zm_val r381)) in E'. discriminate E'. }
  split; [|split].
  - intros w n p s Hs E. destruct w as [|d w]; [|exfalso; exact (ex107_lengths _ _ _ _ _ _ Hs (eq_sym E))]. symmetry in E.
    apply (pay_inj (XA := M381) (XB := M381) (MT := M381) n 0 p f0 s (ex107_c1, ex107_c2) F G G G Hs) in E as [_ ->]; [|split; reflexivity].
    repeat split; reflexivity.
  - intros w m c ck E. destruct w as [|d w]; [exfalso; refine (ex107_lengths 0 f0 (ex107_c1, ex107_c2) _ _ _ _ E); split; reflexivity|].
    apply (point_input_inj (P := P381)) in E as [_ <-]; [reflexivity|exact F|exact G|exact G].
  - reflexivity.
Qed.

(** Property C108: the bounds of C99 and C100 in numbers, for digests of at least 32 bytes and the scalar fields of BLS12-381 and
    BLS12-377: how many digests from_random_bytes rejects, and how quickly the searches for challenges end. *)
Require Import List Arith NArith ZArith Lia Bool.
Import ListNotations.
Require Import Verif.Outcome Verif.Algebra Verif.Rust Verif.InnerProducts Verif.Commitments
  Verif.Gipa Verif.Poly Verif.Tipa Verif.Ssm Verif.Groth16 Verif.Spec Verif.ListFacts Verif.RustFacts
  Verif.Searches Verif.PropsBase Verif.PropsGipa Verif.PropsTipa Verif.PropsGroth Verif.ZpBig Verif.Pocklington Verif.PrimeFields Verif.PropsSearches Verif.PropsLive Verif.PropsLevel.

(** ** The digests that from_random_bytes rejects *)
Lemma filter_split {A} (f : A -> bool) l : length (filter f l) + length (filter (fun a => negb (f a)) l) = length l.
Proof. induction l as [|a l IH]; [reflexivity|]. cbn [filter]. destruct (f a); cbn [negb length]; lia. Qed.
Definition interval (a b : N) : list N := map (fun i => (a + N.of_nat i)%N) (seq 0 (N.to_nat (b - a))).
Lemma interval_in a b x : (a <= x < b)%N -> In x (interval a b).
Proof. intros H. apply in_map_iff. exists (N.to_nat (x - a)). split; [lia|]. apply in_seq. lia. Qed.
Lemma interval_length a b : length (interval a b) = N.to_nat (b - a).
Proof. unfold interval. now rewrite map_length, seq_length. Qed.
Lemma low_lt k bits d : (low k bits d < 2 ^ N.of_nat bits)%N.
Proof. apply N.mod_lt, N.pow_nonzero. lia. Qed.

(** the numbers below 2^bits which are not below p, in the proportion in which they occur *)
Theorem C108_rejected K p k bits len : ark_field K p k bits -> k <= len ->
  (N.of_nat (length (filter (no_element K) (byte_strings len))) * 2 ^ N.of_nat bits =
   (2 ^ N.of_nat bits - p) * N.of_nat (length (byte_strings len)))%N.
Proof.
  intros [[Hk Hb] [_ Hs] _ Hnone _] Hlen.
  assert (Hc : forall (f : bytes -> bool) a b, (forall d, In d (byte_strings len) -> f d = true -> (a <= low k bits d < b)%N) ->
    length (filter f (byte_strings len)) <= N.to_nat (b - a) * (2 ^ (8 * k - bits) * 256 ^ (len - k))).
  { intros f a b Hf. rewrite <- interval_length. apply count_low; [exact Hb|apply NoDup_filter, byte_strings_nodup|].
    intros d Hd. apply filter_In in Hd as [Hd Hfd]. split; [replace (k + (len - k)) with len by lia; exact Hd|]. apply interval_in. auto. }
  assert (Hrej : length (filter (no_element K) (byte_strings len)) <= N.to_nat (2 ^ N.of_nat bits - p) * (2 ^ (8 * k - bits) * 256 ^ (len - k))).
  { apply Hc. intros d _ Hd. split; [|apply low_lt]. unfold no_element in Hd. destruct (f_rand d) eqn:E; [discriminate|]. now apply Hnone. }
  assert (Hacc : length (filter (fun d => negb (no_element K d)) (byte_strings len)) <= N.to_nat (p - 0) * (2 ^ (8 * k - bits) * 256 ^ (len - k))).
  { apply Hc. intros d _ Hd. split; [lia|]. apply N.lt_nge. intros Hge. apply Hnone in Hge. unfold no_element in Hd. rewrite Hge in Hd. discriminate. }
  assert (Hsum := filter_split (no_element K) (byte_strings len)).
  set (c := 2 ^ (8 * k - bits) * 256 ^ (len - k)) in *.
  assert (Htot : (N.of_nat (length (byte_strings len)) = N.of_nat c * 2 ^ N.of_nat bits)%N).
  { unfold c. rewrite byte_strings_length, Nat2N.inj_mul, !of_nat_pow. change (N.of_nat 2) with 2%N. change (N.of_nat 256) with 256%N.
    rewrite N.mul_comm, N.mul_assoc, <- N.pow_add_r. change 256%N with (2 ^ 8)%N. rewrite <- !N.pow_mul_r, <- N.pow_add_r. f_equal. lia. }
  clearbody c.
  set (rej := length (filter (no_element K) (byte_strings len))) in *. set (acc := length (filter (fun d => negb (no_element K d)) (byte_strings len))) in *.
  set (tot := length (byte_strings len)) in *. clearbody rej acc tot. clear - Hrej Hacc Hsum Htot Hs.
  revert Hs Htot Hrej. generalize (2 ^ N.of_nat bits)%N. intros B Hs Htot Hrej.
  assert (H1 : (N.of_nat rej <= (B - p) * N.of_nat c)%N) by lia. assert (H2 : (N.of_nat acc <= p * N.of_nat c)%N) by lia.
  assert (H3 : (N.of_nat rej + N.of_nat acc = N.of_nat c * B)%N) by lia.
  assert (E : (N.of_nat c * B = (B - p) * N.of_nat c + p * N.of_nat c)%N).
  { rewrite <- N.mul_add_distr_r. replace (B - p + p)%N with B by lia. apply N.mul_comm. }
  assert (N.of_nat rej = (B - p) * N.of_nat c)%N as -> by lia. rewrite Htot. ring.
Qed.
Print Assumptions C108_rejected.

Lemma no_inverse_count K len : (forall c, (0 < c < 2 ^ 128)%N -> f_ofN (f := K) c <> f0) -> 16 <= len ->
  length (filter (no_inverse K) (byte_strings len)) <= 256 ^ (len - 16).
Proof.
  intros HK HL. rewrite <- (zeros_count 16 (len - 16)). replace (16 + (len - 16)) with len by lia. apply filter_imp_length.
  intros y Hy Hn. apply be_zero. apply byte_strings_spec in Hy as [Hl Hy]. unfold no_inverse in Hn. apply feqb_spec in Hn.
  destruct (N.eq_0_gt_0_cases (from_be_bytes (firstn 16 y))) as [E|E]; [exact E|]. exfalso. apply (HK (from_be_bytes (firstn 16 y))); [|exact Hn].
  split; [exact E|]. assert (Hlt : (from_be_bytes (firstn 16 y) < 256 ^ N.of_nat (length (firstn 16 y)))%N).
  { apply be_bound. intros x Hx. apply Hy. rewrite <- (firstn_skipn 16 y). apply in_app_iff. now left. }
  rewrite firstn_length, Nat.min_l in Hlt by lia. exact Hlt.
Qed.

(** if (2^bits - p) / 2^bits + 2^-128 is at most 1/c, at most one digest in c is unusable *)
Lemma unusable_share K p k bits len c : ark_field K p k bits -> f_ofN (f := K) 0 = f0 -> k <= len ->
  (c * ((2 ^ N.of_nat bits - p) * 2 ^ 128 + 2 ^ N.of_nat bits) <= 2 ^ N.of_nat bits * 2 ^ 128)%N ->
  (c * N.of_nat (length (filter (unusable K) (byte_strings len))) <= N.of_nat (length (byte_strings len)))%N.
Proof.
  intros HK H0 Hlen Hc. pose proof (C108_rejected K p k bits len HK Hlen) as Hr. destruct HK as [[Hk _] [Hs Hs'] Hi _ _].
  assert (Hni : length (filter (no_inverse K) (byte_strings len)) <= 256 ^ (len - 16)).
  { apply no_inverse_count; [|lia]. intros x Hx E. rewrite <- H0 in E. apply Hi in E; lia. }
  assert (Hor : length (filter (unusable K) (byte_strings len)) <=
    length (filter (no_inverse K) (byte_strings len)) + length (filter (no_element K) (byte_strings len))).
  { unfold unusable. generalize (byte_strings len). induction l as [|d l IH]; [apply le_n|]. cbn [filter].
    destruct (no_inverse K d), (no_element K d); cbn [orb length]; lia. }
  assert (HM : (N.of_nat (256 ^ (len - 16)) * 2 ^ 128 = N.of_nat (length (byte_strings len)))%N).
  { rewrite byte_strings_length, !of_nat_pow. change (2 ^ 128)%N with (256 ^ 16)%N. change (N.of_nat 256) with 256%N.
    rewrite <- N.pow_add_r. f_equal. lia. }
  set (M := N.of_nat (length (byte_strings len))) in *. clearbody M.
  set (u := length (filter (unusable K) (byte_strings len))) in *. set (v := length (filter (no_inverse K) (byte_strings len))) in *.
  set (r := length (filter (no_element K) (byte_strings len))) in *. set (g := 256 ^ (len - 16)) in *. clearbody u v r g.
  assert (HB : (0 < 2 ^ N.of_nat bits)%N) by (pose proof (N.pow_nonzero 2 (N.of_nat bits) ltac:(lia)); lia).
  revert HB Hr Hc. generalize (2 ^ N.of_nat bits)%N. intros B HB Hr Hc.
  assert (Hu : (N.of_nat u <= N.of_nat g + N.of_nat r)%N) by lia. clear Hor Hni.
  assert (HX : (0 < B * 2 ^ 128)%N) by lia. apply (N.mul_le_mono_pos_r _ _ (B * 2 ^ 128)%N HX).
  transitivity (c * (N.of_nat g + N.of_nat r) * (B * 2 ^ 128))%N; [apply N.mul_le_mono_r, N.mul_le_mono_l, Hu|].
  replace (c * (N.of_nat g + N.of_nat r) * (B * 2 ^ 128))%N with (c * ((N.of_nat r * B) * 2 ^ 128 + (N.of_nat g * 2 ^ 128) * B))%N by ring.
  rewrite Hr, HM. replace (c * ((B - p) * M * 2 ^ 128 + M * B))%N with (c * ((B - p) * 2 ^ 128 + B) * M)%N by ring.
  rewrite (N.mul_comm M). apply N.mul_le_mono_r. exact Hc.
Qed.

Theorem C108_unusable_381 len : 32 <= len ->
  10 * length (filter (unusable Fr381) (byte_strings len)) <= length (byte_strings len).
Proof.
  intros Hl.
  assert (H : (10 * N.of_nat (length (filter (unusable Fr381) (byte_strings len))) <= N.of_nat (length (byte_strings len)))%N).
  { apply (unusable_share Fr381 (Z.to_N r381) 32 255); [apply C107_bls12_381|reflexivity|exact Hl|]. apply N.leb_le. vm_compute. reflexivity. }
  lia.
Qed.
Print Assumptions C108_unusable_381.
Theorem C108_unusable_377 len : 32 <= len ->
  2 * length (filter (unusable Fr377) (byte_strings len)) <= length (byte_strings len).
Proof.
  intros Hl.
  assert (H : (2 * N.of_nat (length (filter (unusable Fr377) (byte_strings len))) <= N.of_nat (length (byte_strings len)))%N).
  { apply (unusable_share Fr377 (Z.to_N r377) 32 253); [apply C107_bls12_377|reflexivity|exact Hl|]. apply N.leb_le. vm_compute. reflexivity. }
  lia.
Qed.
Print Assumptions C108_unusable_377.

(** ** The searches *)
Lemma share_power S Y n b T c t : 0 < Y -> c * b <= Y -> S * Y ^ t <= n * b ^ t * T -> S * c ^ t <= n * T.
Proof.
  intros HY Hc H. assert (Hp : 0 < Y ^ t) by (apply Nat.neq_0_lt_0, Nat.pow_nonzero; lia).
  assert (Hb : c ^ t * b ^ t <= Y ^ t) by (rewrite <- Nat.pow_mul_l; apply Nat.pow_le_mono_l; exact Hc).
  apply (mul_le_cancel _ _ (Y ^ t) Hp). replace (S * c ^ t * Y ^ t) with (S * Y ^ t * c ^ t) by ring.
  apply (Nat.mul_le_mono_r _ _ (c ^ t)) in H. etransitivity; [exact H|].
  replace (n * b ^ t * T * c ^ t) with (n * T * (c ^ t * b ^ t)) by ring. apply Nat.mul_le_mono_l. exact Hb.
Qed.
Lemma byte_strings_pos len : 0 < length (byte_strings len).
Proof. rewrite byte_strings_length. apply Nat.neq_0_lt_0, Nat.pow_nonzero. lia. Qed.

(** the number c of digests of which at most one is unusable *)
Definition one_in (K : field) (c : nat) : Prop := (K = Fr381 /\ c = 10) \/ (K = Fr377 /\ c = 2).
Lemma one_in_unusable K c len : one_in K c -> 32 <= len -> c * length (filter (unusable K) (byte_strings len)) <= length (byte_strings len).
Proof. intros [[-> ->]|[-> ->]] Hl; [now apply C108_unusable_381|now apply C108_unusable_377]. Qed.

(** any of the calls of C99: still searching after t nonces for at most n / c^t of the hash functions *)
Theorem C108_stuck {A} K c n (f : (bytes -> bytes) -> nat -> res A) len X D0 t :
  one_in K c -> rarely_stuck (unusable K) n f -> 32 <= len -> NoDup X ->
  (forall q, 16 <= length (D0 q) /\ unusable K (D0 q) = false) -> (N.of_nat t <= 2 ^ 64)%N ->
  length (filter (fun D => still_running (f D t)) (tables X (byte_strings len) D0)) * c ^ t <= n * length (tables X (byte_strings len) D0).
Proof.
  intros HK Hf Hl HX HD Ht. rewrite tables_length.
  apply (share_power _ (length (byte_strings len)) _ (length (filter (unusable K) (byte_strings len)))); [apply byte_strings_pos|now apply one_in_unusable|].
  apply (Hf X (byte_strings len) D0 t HX); auto. intros y Hy. apply byte_strings_spec in Hy as [H _]. lia.
Qed.
Print Assumptions C108_stuck.

(** any of the honest runs of C100: not accepted with searches of t nonces for at most n / c^t of the hash functions *)
Theorem C108_honest K c n (f : (bytes -> bytes) -> nat -> res bool) len X D0 t :
  one_in K c -> nearly_always (unusable K) n f -> 32 <= len -> NoDup X ->
  (forall q, 16 <= length (D0 q) /\ unusable K (D0 q) = false) -> (N.of_nat t <= 2 ^ 64)%N ->
  length (filter (fun D => negb (accepted (f D t))) (tables X (byte_strings len) D0)) * c ^ t <= n * length (tables X (byte_strings len) D0).
Proof.
  intros HK Hf Hl HX HD Ht. rewrite tables_length.
  apply (share_power _ (length (byte_strings len)) _ (length (filter (unusable K) (byte_strings len)))); [apply byte_strings_pos|now apply one_in_unusable|].
  apply (Hf X (byte_strings len) D0 t HX); auto. intros y Hy. apply byte_strings_spec in Hy as [H _]. lia.
Qed.
Print Assumptions C108_honest.

(** GIPA alone does not use from_random_bytes: n / 2^(128 t), for any field whose characteristic is at least 2^128 *)
Theorem C108_honest_gipa K n (f : (bytes -> bytes) -> nat -> res bool) len X D0 t :
  (forall c, (0 < c < 2 ^ 128)%N -> f_ofN (f := K) c <> f0) -> nearly_always (no_inverse K) n f -> 16 <= len -> NoDup X ->
  (forall q, 16 <= length (D0 q) /\ no_inverse K (D0 q) = false) -> (N.of_nat t <= 2 ^ 64)%N ->
  length (filter (fun D => negb (accepted (f D t))) (tables X (byte_strings len) D0)) * (256 ^ 16) ^ t <= n * length (tables X (byte_strings len) D0).
Proof.
  intros HK Hf Hl HX HD Ht. rewrite tables_length.
  apply (share_power _ (length (byte_strings len)) _ (length (filter (no_inverse K) (byte_strings len)))); [apply byte_strings_pos| |].
  - pose proof (no_inverse_count K len HK Hl) as H. rewrite byte_strings_length. apply (Nat.mul_le_mono_l _ _ (256 ^ 16)) in H.
    rewrite <- Nat.pow_add_r in H. replace (16 + (len - 16)) with len in H by lia. exact H.
  - apply (Hf X (byte_strings len) D0 t HX); auto. intros y Hy. apply byte_strings_spec in Hy as [H _]. lia.
Qed.
Print Assumptions C108_honest_gipa.

(** ** Groth16 aggregation: also the batching challenge must not be 0 or 1 *)
Lemma degenerate_count K p k bits len : ark_field K p k bits -> k <= len ->
  (N.of_nat (length (filter (degenerate K) (byte_strings len))) * 2 ^ N.of_nat bits <= 2 * N.of_nat (length (byte_strings len)))%N.
Proof.
  intros HK Hlen. destruct (C107_spread K p k bits len HK Hlen) as [_ Hp]. destruct HK as [[Hk Hb] _ _ _ _].
  set (g := 2 ^ (8 * k - bits) * 256 ^ (len - k)) in *.
  assert (Hg : (N.of_nat g * 2 ^ N.of_nat bits = N.of_nat (length (byte_strings len)))%N).
  { unfold g. rewrite byte_strings_length, Nat2N.inj_mul, !of_nat_pow. change (N.of_nat 2) with 2%N. change (N.of_nat 256) with 256%N.
    rewrite N.mul_comm, N.mul_assoc, <- N.pow_add_r. change 256%N with (2 ^ 8)%N. rewrite <- !N.pow_mul_r, <- N.pow_add_r. f_equal. lia. }
  set (is := fun (x : K) (d : bytes) => match f_rand (f := K) d with Some c => feqb c x | None => false end).
  assert (Hx : forall x, length (filter (is x) (byte_strings len)) <= g).
  { intros x. apply (Hp x); [apply NoDup_filter, byte_strings_nodup|]. intros d Hd. apply filter_In in Hd as [Hd E]. split; [exact Hd|].
    unfold is in E. destruct (f_rand d) as [c|]; [|discriminate]. apply feqb_spec in E. now rewrite E. }
  assert (Hor : length (filter (degenerate K) (byte_strings len)) <= length (filter (is f0) (byte_strings len)) + length (filter (is f1) (byte_strings len))).
  { unfold degenerate, is. generalize (byte_strings len). induction l as [|d l IH]; [apply le_n|]. cbn [filter].
    destruct (f_rand d) as [c|]; [|exact IH]. destruct (feqb c f0), (feqb c f1); cbn [orb length]; lia. }
  pose proof (Hx f0). pose proof (Hx f1). rewrite <- Hg. clearbody g.
  assert (N.of_nat (length (filter (degenerate K) (byte_strings len))) <= 2 * N.of_nat g)%N by lia.
  rewrite N.mul_assoc. now apply N.mul_le_mono_r.
Qed.

Lemma share_two (S Y b d n T c t : nat) (B : N) : 2 <= c -> 0 < Y -> c * b <= Y -> (N.of_nat d * B <= 2 * N.of_nat Y)%N ->
  S * (Y ^ t * (Y - b)) <= (n * b ^ t * (Y - b) + d * Y ^ t) * T ->
  (N.of_nat S * (N.of_nat (c ^ t) * B) <= (N.of_nat n * B + 4 * N.of_nat (c ^ t)) * N.of_nat T)%N.
Proof.
  intros Hc2 HY Hc Hd H. assert (Hp : 0 < Y ^ t) by (apply Nat.neq_0_lt_0, Nat.pow_nonzero; lia).
  assert (Hb : c ^ t * b ^ t <= Y ^ t) by (rewrite <- Nat.pow_mul_l; apply Nat.pow_le_mono_l; exact Hc).
  assert (Hb2 : 2 * b <= Y) by nia. set (e := Y - b) in *. assert (He : Y <= 2 * e) by lia. assert (He0 : 0 < e) by lia. clearbody e.
  revert Hp Hb H. generalize (Y ^ t) (c ^ t) (b ^ t). intros y x z Hp Hb H.
  apply (N.mul_le_mono_pos_r _ _ (N.of_nat y * N.of_nat e)%N); [lia|].
  assert (H' : (N.of_nat S * (N.of_nat y * N.of_nat e) <= (N.of_nat n * N.of_nat z * N.of_nat e + N.of_nat d * N.of_nat y) * N.of_nat T)%N) by lia.
  apply (N.mul_le_mono_r _ _ (N.of_nat x * B)%N) in H'.
  replace (N.of_nat S * (N.of_nat x * B) * (N.of_nat y * N.of_nat e))%N with (N.of_nat S * (N.of_nat y * N.of_nat e) * (N.of_nat x * B))%N by ring.
  etransitivity; [exact H'|].
  replace ((N.of_nat n * N.of_nat z * N.of_nat e + N.of_nat d * N.of_nat y) * N.of_nat T * (N.of_nat x * B))%N
    with ((N.of_nat n * B * N.of_nat e * (N.of_nat x * N.of_nat z) + N.of_nat x * N.of_nat y * (N.of_nat d * B)) * N.of_nat T)%N by ring.
  replace ((N.of_nat n * B + 4 * N.of_nat x) * N.of_nat T * (N.of_nat y * N.of_nat e))%N
    with ((N.of_nat n * B * N.of_nat e * N.of_nat y + N.of_nat x * N.of_nat y * (4 * N.of_nat e)) * N.of_nat T)%N by ring.
  apply N.mul_le_mono_r, N.add_le_mono; apply N.mul_le_mono_l; lia.
Qed.

(** an aggregate of 2^(k+1) valid proofs is refused for at most a share (2 k + 5) / c^t + 4 / 2^bits of the hash functions *)
Theorem C108_groth16 {R} (P : pairing) (E E' : penv) (rs : sampler R (pK P)) (r1 : sampler R (pG1 P)) (r2 : sampler R (pG2 P)) c bits :
  1 <= threads E -> 1 <= threads E' -> (pK P = Fr381 /\ c = 10 /\ bits = 255) \/ (pK P = Fr377 /\ c = 2 /\ bits = 253) ->
  forall rng k s rng' ka kb v pfs vk inputs X len D0 t,
  g16_setup P rs rng (2 ^ S k) = Ok (s, rng') -> get_commitment_keys s = (ka, kb) -> get_verifier_key s = Ok v ->
  length pfs = 2 ^ S k -> rows_fit vk inputs -> Forall2 (g16_valid vk) inputs pfs -> NoDup X -> 32 <= len ->
  (forall q, 16 <= length (D0 q) /\ unusable (pK P) (D0 q) = false /\ degenerate (pK P) (D0 q) = false) -> (N.of_nat t <= 2 ^ 64)%N ->
  (N.of_nat (length (filter (fun D => negb (accepted (do proof <- g16_aggregate P E D t r1 r2 s pfs; g16_verify P E' D t r1 r2 v vk inputs proof)))
      (tables X (byte_strings len) D0))) * (N.of_nat (c ^ t) * 2 ^ N.of_nat bits) <=
   (N.of_nat (2 * k + 5) * 2 ^ N.of_nat bits + 4 * N.of_nat (c ^ t)) * N.of_nat (length (tables X (byte_strings len) D0)))%N.
Proof.
  intros HE HE' HP rng k s rng' ka kb v pfs vk inputs X len D0 t Hs Hk Hv Hn Hfit HV HX Hlen HD Ht.
  assert (HK : one_in (pK P) c /\ exists p, ark_field (pK P) p 32 bits).
  { destruct HP as [(-> & -> & ->)|(-> & -> & ->)]; (split; [unfold one_in; auto|]); eexists; [apply C107_bls12_381|apply C107_bls12_377]. }
  destruct HK as [Hc [p HK]].
  assert (HY : forall y, In y (byte_strings len) -> 16 <= length y) by (intros y Hy; apply byte_strings_spec in Hy as [H _]; lia).
  pose proof (C100_groth16 P E E' HE HE' rs r1 r2 rng k s rng' ka kb v pfs vk inputs X (byte_strings len) D0 t Hs Hk Hv Hn Hfit HV HX HY HD Ht) as H.
  cbv zeta in H. rewrite tables_length. replace (2 * k + 5) with (2 * S k + 3) by lia.
  assert (Hc2 : 2 <= c) by (destruct Hc as [[_ ->]|[_ ->]]; lia).
  exact (share_two _ _ _ _ _ _ c t _ Hc2 (byte_strings_pos len) (one_in_unusable _ c len Hc Hlen) (degenerate_count (pK P) p 32 bits len HK Hlen) H).
Qed.
Print Assumptions C108_groth16.

(** ** Examples: the scalar field of BLS12-381, digests of 32 bytes *)
Definition ex108_digest : bytes := 2%N :: repeat 0%N 31.
Definition ex108_D0 : bytes -> bytes := fun _ => ex108_digest.
Definition ex108_scalars : sampler Z Fr381 := fun n => (fq n, (n + 1)%Z).
Definition ex108_vk : g16_vk P381 := mk_g16_vk (P := P381) (fq 2) (fq 3) (fq 5) (fq 7) (fl [1; 4]%Z).
Definition ex108_pfs : list (g16_proof P381) :=
  [mk_g16_proof (P := P381) (fq 85) (fq 1) (fq 2); mk_g16_proof (P := P381) (fq 1) (fq 59) (fq 4)].
Definition ex108_inputs : list (list Fr381) := [[fq 3]; [fq 1]].

(** the digest of 32 bytes 255 is rejected by both fields; 2 followed by zeros is neither rejected nor degenerate *)
Example C108_example_digests :
  no_element Fr381 (repeat 255%N 32) = true /\ no_element Fr377 (repeat 255%N 32) = true /\
  no_element Fr377 (repeat 0%N 31 ++ [20%N]) = true /\ no_element Fr381 (repeat 0%N 31 ++ [20%N]) = false /\
  (16 <= length ex108_digest /\ unusable Fr381 ex108_digest = false /\ degenerate Fr381 ex108_digest = false) /\ degenerate Fr381 (1%N :: repeat 0%N 31) = true.
Proof. do 4 (split; [reflexivity|]). split; [|reflexivity]. split; [cbn; lia|split; reflexivity]. Qed.

(** an honest TIPA run for vectors of two elements, with searches of at most 40 nonces *)
Definition ex108_run (D : bytes -> bytes) (t : nat) : res bool :=
  do proof <- tipa_prove ex107_L ex107_R (identity M381) (pairing_ip P381 ex_env1) D t ex107_s (fl [2; 3]%Z, fl [5; 7]%Z) (fl [1; 9]%Z, fl [1; 4]%Z, tt);
  tipa_verify ex107_L ex107_R (identity M381) (pairing_ip P381 ex_env1) D t ex107_vsrs tt
    (pairing_sum P381 (fl [2; 3]%Z) (fl [1; 9]%Z), pairing_sum P381 (fl [1; 4]%Z) (fl [5; 7]%Z), [pairing_sum P381 (fl [2; 3]%Z) (fl [5; 7]%Z)]) proof.
Example C108_example_honest (X : list bytes) : NoDup X ->
  length (filter (fun D => negb (accepted (ex108_run D 40))) (tables X (byte_strings 32) ex108_D0)) * 10 ^ 40 <=
  2 * length (tables X (byte_strings 32) ex108_D0).
Proof.
  intros HX.
  refine (C108_honest Fr381 10 2 ex108_run 32 X ex108_D0 40 (or_introl (conj eq_refl eq_refl)) _ (le_n _) HX _ _).
  - exact (C100_tipa P381 ex_env1 ex_env1 (le_n _) (le_n _) ex108_scalars ex107_rand ex107_rand 2%Z 0 ex107_s tt 4%Z
      (fl [1; 9]%Z) (fl [1; 4]%Z) ex107_vsrs (fl [2; 3]%Z) (fl [5; 7]%Z) eq_refl eq_refl eq_refl eq_refl eq_refl).
  - intros q. split; [cbn; lia|reflexivity].
  - cbn. lia.
Qed.
Example C108_example_groth16 :
  g16_setup P381 ex108_scalars 2%Z (2 ^ 1) = Ok (ex107_s, 4%Z) /\ get_commitment_keys ex107_s = (fl [1; 9]%Z, fl [1; 4]%Z) /\
  get_verifier_key ex107_s = Ok ex107_vsrs /\ length ex108_pfs = 2 ^ 1 /\ rows_fit ex108_vk ex108_inputs /\ Forall2 (g16_valid ex108_vk) ex108_inputs ex108_pfs.
Proof.
  do 4 (split; [reflexivity|]). split; [split; [discriminate|repeat constructor]|]. repeat constructor.
Qed.

(** Property C116: the circuits of the benchmark over the curves it uses.  The inner proofs are over BLS12-377 (scalars of
    253 bits in 32 bytes), the outer ones over BW6-761 (scalars of 377 bits in 48 bytes). *)
Require Import List Arith NArith ZArith Znumtheory Lia Bool Field.
Import ListNotations.
Require Import Verif.Outcome Verif.Algebra Verif.Zp Verif.ZpBig Verif.Rust Verif.Spec Verif.ListFacts Verif.RustFacts Verif.Commitments
  Verif.Poly Verif.Gipa Verif.Tipa Verif.Groth16 Verif.Batch Verif.GrothMain Verif.Circuits Verif.CircuitFacts Verif.GipaFacts Verif.PropsBase
  Verif.Groth16Facts Verif.PropsGroth Verif.PropsBatch Verif.PropsCircuits Verif.Pocklington Verif.PrimeQ377 Verif.PrimeFields.
Local Open Scope nat_scope.

(** ** Specification: the number with given bytes, least significant first *)
Fixpoint num (b : bytes) : N := match b with [] => 0 | x :: b => x + 256 * num b end%N.
Definition two {A} (p : A * A) : list A := [fst p; snd p].

Lemma num_from b : num b = from_le_bytes b.
Proof. induction b as [|x b IH]; [reflexivity|]. cbn. now rewrite IH. Qed.
Lemma le_bytes_app j k : forall n, le_bytes (j + k) n = le_bytes j n ++ le_bytes k (n / 256 ^ N.of_nat j).
Proof.
  induction j as [|j IH]; intros n.
  - change (256 ^ N.of_nat 0)%N with 1%N. now rewrite N.div_1_r.
  - cbn [Nat.add le_bytes app]. rewrite IH. f_equal. f_equal. f_equal. rewrite pow256_S.
    apply N.div_div; [lia|]. apply N.pow_nonzero. lia.
Qed.
Lemma le_bytes_mod k n : le_bytes k (n mod 256 ^ N.of_nat k) = le_bytes k n.
Proof.
  rewrite <- from_le_le, le_from_le by (try apply le_bytes_is; rewrite le_bytes_length; lia).
  rewrite le_bytes_length, Nat.sub_diag. cbn [repeat]. apply app_nil_r.
Qed.
Lemma firstn_app_exact {A} (l r : list A) n : length l = n -> firstn n (l ++ r) = l.
Proof. intros <-. now rewrite firstn_app, firstn_all, Nat.sub_diag, app_nil_r. Qed.
Lemma skipn_app_exact {A} (l r : list A) n : length l = n -> skipn n (l ++ r) = r.
Proof. intros <-. now rewrite skipn_app, skipn_all, Nat.sub_diag. Qed.

Lemma chunks_fuel_two {A} k n (L R : list A) : length L = k -> 0 < k -> 0 < length R <= k -> chunks_fuel (S (S n)) k (L ++ R) = [L; R].
Proof.
  intros HL Hk HR. cbn [chunks_fuel]. destruct (L ++ R) as [|y z] eqn:E; [apply (f_equal (@length _)) in E; rewrite app_length in E; cbn in E; lia|].
  rewrite <- E. rewrite firstn_app_exact, skipn_app_exact by exact HL. f_equal. clear E y z.
  destruct R as [|y z] eqn:E; [cbn in HR; lia|]. rewrite <- E in *. rewrite firstn_all2, skipn_all2 by lia. f_equal. now destruct n.
Qed.

Section Curves.
  Context {P Q : pairing} (F : prime_repr (pK P)) (G : prime_repr (pK Q)) (HF : prime_repr_ok F) (HG : prime_repr_ok G).
  (** ark_bls12_377::Fr and ark_bw6_761::Fr *)
  Hypothesis HFm : pr_modulus F = bls12_377_r.
  Hypothesis HFb : pr_bytes F = 32.
  Hypothesis HGm : pr_modulus G = bw6_761_r.

  Lemma curve_fit : fit_bytes F = 31.
  Proof using HFm. unfold fit_bytes, modulus_bits. rewrite HFm. reflexivity. Qed.
  Lemma curve_element : element_bytes F = 32.
  Proof using HFm. unfold element_bytes, modulus_bits. rewrite HFm. reflexivity. Qed.
  Lemma curve_fit_outer : fit_bytes G = 47.
  Proof using HGm. unfold fit_bytes, modulus_bits. rewrite HGm. reflexivity. Qed.
  Lemma curve_len : input_vec_len F 32 = 2.
  Proof using HFm. unfold input_vec_len. rewrite curve_fit. reflexivity. Qed.
  Lemma curve_len_outer : input_vec_len G 64 = 2.
  Proof using HGm. unfold input_vec_len. rewrite curve_fit_outer. reflexivity. Qed.
  Lemma curve_agg_bytes : agg_bytes P F = 64.
  Proof using HFm HFb. unfold agg_bytes. rewrite HFb, curve_len. reflexivity. Qed.
  Lemma fit_pos : 0 < fit_bytes F.
  Proof using HFm. rewrite curve_fit. apply Nat.lt_0_succ. Qed.
  Lemma fit_outer_pos : 0 < fit_bytes G.
  Proof using HGm. rewrite curve_fit_outer. apply Nat.lt_0_succ. Qed.

  (** A hash is two elements: its first 31 bytes and its last byte. *)
  Theorem C116_hash_elements (h : bytes) : is_hash h -> exists a b, to_field_elements F h = Ok [a; b] /\
    into_bigint F a = num (firstn 31 h) /\ into_bigint F b = nth 31 h 0%N.
  Proof using HF HFm.
    clear HFb HGm. intros [Hl Hb]. destruct (C71_encode F HF fit_pos h Hb) as (l & H1 & H2 & H3 & _). rewrite Hl, curve_fit in H2. change ((32 + 31 - 1) / 31) with 2 in H2.
    destruct l as [|a [|b [|? ?]]]; try discriminate H2. exists a, b. split; [exact H1|]. rewrite curve_fit in H3.
    pose proof (H3 0 ltac:(cbn; lia)) as Ha. pose proof (H3 1 ltac:(cbn; lia)) as Hb'. cbn [nth] in Ha, Hb'.
    split; [etransitivity; [exact Ha|symmetry; apply num_from]|]. etransitivity; [exact Hb'|]. change (1 * 31) with 31.
    assert (Hs : length (skipn 31 h) = 1) by (rewrite skipn_length, Hl; reflexivity).
    rewrite <- (firstn_skipn 31 h) at 2. rewrite app_nth2 by (rewrite firstn_length, Hl; cbn; lia).
    rewrite firstn_length, Hl. change (31 - Nat.min 31 32) with 0.
    destruct (skipn 31 h) as [|y [|? ?]]; try discriminate Hs. cbn. lia.
  Qed.
  Lemma hash_first_lt h : is_hash h -> (num (firstn 31 h) < 256 ^ 31)%N.
  Proof using.
    clear. intros [Hl Hb]. rewrite num_from. eapply N.lt_le_trans; [apply from_le_lt|].
    - rewrite <- (firstn_skipn 31 h) in Hb. apply Forall_app in Hb. tauto.
    - rewrite firstn_length, Hl. apply N.le_refl.
  Qed.
  Lemma hash_last_lt h : is_hash h -> (nth 31 h 0 < 256)%N.
  Proof using. clear. intros [Hl Hb]. eapply Forall_nth in Hb; [exact Hb|]. lia. Qed.

  (** *** The Blake2s circuit *)
  Variable blake : bytes -> bytes.

  (** For any values of its public inputs, two for each witness: the constraints hold exactly when the low 31 bytes of the
      first and the low byte of the second are the hash of the witness. *)
  Theorem C116_blake_accepts (x : list (pK P * pK P)) (ws : list bytes) : length x = length ws -> Forall (fun w => is_hash (blake w)) ws ->
    exists ok, many_holds F blake (flat_map two x) ws = Ok ok /\
      (ok = true <-> Forall2 (fun uv w => (into_bigint F (fst uv) mod 256 ^ 31)%N = num (firstn 31 (blake w)) /\
                                          (into_bigint F (snd uv) mod 256)%N = nth 31 (blake w) 0%N) x ws).
  Proof using HFm.
    clear HFb HGm. intros Hl Hh. revert x Hl. induction Hh as [|w ws Hw Hh IH]; intros x Hl.
    - destruct x; [|discriminate]. exists true. split; [reflexivity|]. split; [constructor|reflexivity].
    - destruct x as [|[u v] x]; [discriminate|]. destruct (IH x ltac:(cbn in Hl; lia)) as (ok & H1 & H2).
      cbn [flat_map two fst snd many_holds]. rewrite curve_len. rewrite slice_to_app, slice_from_app by reflexivity. cbn [rbind]. change (two (u, v)) with [u; v].
      assert (Hb : input_vec_bytes F 32 [u; v] = Ok (le_bytes 31 (into_bigint F u) ++ [(into_bigint F v mod 256)%N])).
      { unfold input_vec_bytes. rewrite curve_fit. cbn [flat_map]. rewrite app_nil_r. unfold slice_to. rewrite app_length, !le_bytes_length.
        change (32 <=? 31 + 31) with true. cbn match. rewrite firstn_app, le_bytes_length. rewrite firstn_all2 by (rewrite le_bytes_length; lia). reflexivity. }
      rewrite Hb. cbn [rbind]. rewrite H1. cbn [rbind]. eexists. split; [reflexivity|]. rewrite andb_true_iff, bytes_eqb_spec, H2.
      assert (Hiff : le_bytes 31 (into_bigint F u) ++ [(into_bigint F v mod 256)%N] = blake w <->
        (into_bigint F u mod 256 ^ 31)%N = num (firstn 31 (blake w)) /\ (into_bigint F v mod 256)%N = nth 31 (blake w) 0%N).
      { destruct Hw as [Lw Bw]. rewrite num_from. split.
        - intros <-. rewrite firstn_app_exact by apply le_bytes_length. rewrite from_le_le. split; [reflexivity|].
          rewrite app_nth2 by (rewrite le_bytes_length; lia). rewrite le_bytes_length. reflexivity.
        - intros [E1 E2]. rewrite <- (firstn_skipn 31 (blake w)). f_equal.
          + assert (Ef : length (firstn 31 (blake w)) = 31) by (rewrite firstn_length, Lw; reflexivity).
            rewrite <- (le_bytes_mod 31). change (256 ^ N.of_nat 31)%N with (256 ^ 31)%N. rewrite E1, le_from_le.
            * rewrite Ef. cbn [Nat.sub repeat]. apply app_nil_r.
            * rewrite <- (firstn_skipn 31 (blake w)) in Bw. apply Forall_app in Bw. tauto.
            * lia.
          + rewrite E2. assert (Hs : length (skipn 31 (blake w)) = 1) by (rewrite skipn_length, Lw; reflexivity).
            rewrite <- (firstn_skipn 31 (blake w)) at 1. rewrite app_nth2 by (rewrite firstn_length, Lw; cbn; lia).
            rewrite firstn_length, Lw. change (31 - Nat.min 31 32) with 0. destruct (skipn 31 (blake w)) as [|y [|? ?]]; try discriminate Hs. reflexivity. }
      rewrite Hiff. split.
      + intros [A B]. constructor; auto.
      + intros H. inversion H; subst. auto.
  Qed.
  (** So each hash has many accepted public inputs besides its own: *)
  Theorem C116_blake_other_inputs_refuted w s t : is_hash (blake w) -> (t <= 17)%N -> (256 * s < 256 ^ 31)%N ->
    exists u v, into_bigint F u = (num (firstn 31 (blake w)) + t * 256 ^ 31)%N /\ into_bigint F v = (nth 31 (blake w) 0 + 256 * s)%N /\
      many_holds F blake [u; v] [w] = Ok true /\ (to_field_elements F (blake w) = Ok [u; v] <-> t = 0%N /\ s = 0%N).
  Proof using HF HFm.
    clear HFb HGm. intros Hw Ht Hs. pose proof (hash_first_lt _ Hw) as H1. pose proof (hash_last_lt _ Hw) as H2.
    set (a := num (firstn 31 (blake w))) in *. set (b := nth 31 (blake w) 0%N) in *.
    assert (Hr : (18 * 256 ^ 31 < pr_modulus F)%N) by (rewrite HFm; reflexivity).
    assert (Hc : (256 < 256 ^ 31)%N) by reflexivity. assert (Hb0 : (256 ^ 31 <> 0)%N) by (intros X; discriminate X).
    set (B := (256 ^ 31)%N) in *. assert (EB : (256 ^ 31 = B)%N) by reflexivity. clearbody B.
    assert (Hm1 : (a + t * B < pr_modulus F)%N) by (assert (Hle : (t * B <= 17 * B)%N) by (now apply N.mul_le_mono_r); lia).
    assert (Hm2 : (b + 256 * s < pr_modulus F)%N) by lia.
    exists (f_ofN (a + t * B)%N), (f_ofN (b + 256 * s)%N). rewrite !(into_ofN F HF). rewrite (N.mod_small _ _ Hm1), (N.mod_small _ _ Hm2).
    split; [reflexivity|]. split; [reflexivity|]. split.
    - destruct (C116_blake_accepts [(f_ofN (a + t * B)%N, f_ofN (b + 256 * s)%N)] [w] eq_refl ltac:(repeat constructor; apply Hw)) as (ok & E1 & E2).
      cbn [flat_map two fst snd app] in E1. rewrite E1. f_equal. apply E2. constructor; [|constructor]. cbn [fst snd]. rewrite !(into_ofN F HF).
      rewrite (N.mod_small _ _ Hm1), (N.mod_small _ _ Hm2). fold a b. split.
      + rewrite EB, N.mod_add by exact Hb0. now apply N.mod_small.
      + rewrite N.mul_comm, N.mod_add by (intros X; discriminate X). now apply N.mod_small.
    - destruct (C116_hash_elements _ Hw) as (a' & b' & E & Ea & Eb). fold a in Ea. fold b in Eb. rewrite E. split.
      + intros X. assert (Xa : a' = f_ofN (a + t * B)%N) by congruence. assert (Xb : b' = f_ofN (b + 256 * s)%N) by congruence.
        rewrite Xa, (into_ofN F HF), (N.mod_small _ _ Hm1) in Ea. rewrite Xb, (into_ofN F HF), (N.mod_small _ _ Hm2) in Eb. split; [|lia]. destruct t; [reflexivity|]. assert (B <= N.pos p * B)%N by (rewrite <- (N.mul_1_l B) at 1; apply N.mul_le_mono_r; lia). lia.
      + intros [-> ->]. rewrite N.mul_0_l, N.mul_0_r, !N.add_0_r. rewrite <- Ea, <- Eb, !(ofN_into F HF). reflexivity.
  Qed.

  (** *** The circuit that verifies the proofs *)
  Lemma curve_decode u v : let t := (into_bigint G u mod 256 ^ 47 + 256 ^ 47 * into_bigint G v)%N in
    agg_decode P Q F G [u; v] = Ok [f_ofN (t mod 256 ^ 32)%N; f_ofN (t / 256 ^ 32 mod 256 ^ 32)%N].
  Proof using HFm HFb HGm.
    intros t. unfold agg_decode. rewrite curve_agg_bytes, curve_element.
    assert (Hb : input_vec_bytes G 64 [u; v] = Ok (le_bytes 32 t ++ le_bytes 32 (t / 256 ^ 32)%N)).
    { unfold input_vec_bytes. rewrite curve_fit_outer. cbn [flat_map]. rewrite app_nil_r.
      assert (E : le_bytes 47 (into_bigint G u) ++ le_bytes 47 (into_bigint G v) = le_bytes (64 + 30) t).
      { change (64 + 30) with (47 + 47). rewrite le_bytes_app. f_equal.
        - rewrite <- (le_bytes_mod 47 t), <- (le_bytes_mod 47 (into_bigint G u)). f_equal. unfold t. change (256 ^ N.of_nat 47)%N with (256 ^ 47)%N.
          rewrite N.mul_comm, N.mod_add, N.mod_mod by (intros X; discriminate X). reflexivity.
        - f_equal. unfold t. change (256 ^ N.of_nat 47)%N with (256 ^ 47)%N. rewrite N.mul_comm, N.div_add by (intros X; discriminate X).
          rewrite N.div_small by (apply N.mod_lt; intros X; discriminate X). reflexivity. }
      rewrite E, le_bytes_app. unfold slice_to. rewrite app_length, !le_bytes_length. change (64 <=? 64 + 30) with true. cbn match.
      rewrite firstn_app_exact by apply le_bytes_length. change 64 with (32 + 32). rewrite le_bytes_app. reflexivity. }
    rewrite Hb. cbn [rbind].
    assert (Ec : le_bytes 32 t ++ le_bytes 32 (t / 256 ^ 32)%N = concat [le_bytes 32 t; le_bytes 32 (t / 256 ^ 32)%N]) by (cbn [concat]; now rewrite app_nil_r).
    rewrite Ec, chunks_ok by lia. cbn [rbind]. rewrite chunks_fuel_blocks; [|lia|repeat constructor; apply le_bytes_length|lia].
    cbn [map]. rewrite !from_le_le. reflexivity.
  Qed.
  (** the scalars that the circuit reads from two public inputs *)
  Definition read_scalars (uv : pK Q * pK Q) : list (pK P) :=
    let t := (into_bigint G (fst uv) mod 256 ^ 47 + 256 ^ 47 * into_bigint G (snd uv))%N in
    [f_ofN (t mod 256 ^ 32)%N; f_ofN (t / 256 ^ 32 mod 256 ^ 32)%N].

  (** For any values of its public inputs, two for each proof: the constraints hold exactly when each proof is a valid Groth16
      proof for the two scalars read from its inputs; a verifying key for another number of scalars panics. *)
  Theorem C116_accepts (vk : g16_vk P) (x : list (pK Q * pK Q)) pfs : length x = length pfs -> length (vk_gamma_abc_g1 vk) = 3 ->
    exists ok, agg_holds P Q F G vk (flat_map two x) pfs = Ok ok /\ (ok = true <-> Forall2 (fun uv pf => g16_valid vk (read_scalars uv) pf) x pfs).
  Proof using HFm HFb HGm.
    intros Hl Hvk. revert x Hl. induction pfs as [|pf pfs IH]; intros x Hl.
    - destruct x; [|discriminate]. exists true. split; [reflexivity|]. split; [constructor|reflexivity].
    - destruct x as [|[u v] x]; [discriminate|]. destruct (IH x ltac:(cbn in Hl; lia)) as (ok & H1 & H2).
      cbn [flat_map two fst snd agg_holds]. rewrite curve_agg_bytes, curve_len_outer. rewrite slice_to_app, slice_from_app by reflexivity. cbn [rbind]. change (two (u, v)) with [u; v].
      rewrite curve_decode. cbv zeta. cbn [rbind]. destruct (verify_one_iff vk (read_scalars (u, v)) pf) as (ok1 & H3 & H4); [rewrite Hvk; reflexivity|].
      unfold read_scalars in H3. cbv zeta in H3. cbn [fst snd] in H3. rewrite H3. cbn [rbind]. rewrite H1. cbn [rbind].
      eexists. split; [reflexivity|]. rewrite andb_true_iff, H4, H2. split.
      + intros [A B]. constructor; auto.
      + intros H. inversion H; subst. auto.
  Qed.
  Theorem C116_other_key (vk : g16_vk P) (x : list (pK Q * pK Q)) pfs : length x = length pfs -> pfs <> [] -> length (vk_gamma_abc_g1 vk) <> 3 ->
    agg_holds P Q F G vk (flat_map two x) pfs = Panic.
  Proof using HFm HFb HGm.
    intros Hl Hn Hvk. destruct pfs as [|pf pfs]; [contradiction|]. destruct x as [|[u v] x]; [discriminate|].
    cbn [flat_map two fst snd agg_holds]. rewrite curve_agg_bytes, curve_len_outer. rewrite slice_to_app, slice_from_app by reflexivity. cbn [rbind]. change (two (u, v)) with [u; v].
    rewrite curve_decode. cbv zeta. cbn [rbind]. unfold g16_verify_one. cbn [length].
    destruct (Nat.eqb_spec (2 + 1) (length (vk_gamma_abc_g1 vk))) as [E|E]; [lia|reflexivity].
  Qed.

  (** The public inputs of a hash: the hash with a zero byte before its last byte, and zero. *)
  Definition hash_input (h : bytes) : pK Q * pK Q := (f_ofN (num (firstn 31 h) + 256 ^ 32 * nth 31 h 0)%N, f_ofN 0%N).
  Lemma bound33 a b : (a < 256 ^ 31)%N -> (b < 256)%N -> (a + 256 ^ 32 * b < 256 ^ 33)%N.
  Proof using. clear HFm HFb HGm. intros Ha Hb. change (256 ^ 33)%N with (256 ^ 32 * 256)%N. change (256 ^ 32)%N with (256 * 256 ^ 31)%N in *. nia. Qed.
  Lemma outer_small n : (n < 256 ^ 47)%N -> into_bigint G (f_ofN n) = n.
  Proof using HG HGm. intros H. rewrite (into_ofN G HG), HGm. apply N.mod_small. eapply N.lt_trans; [exact H|reflexivity]. Qed.
  Lemma outer_elements t : (t < 256 ^ 64)%N -> to_field_elements G (le_bytes 64 t) = Ok [f_ofN (t mod 256 ^ 47)%N; f_ofN (t / 256 ^ 47)%N].
  Proof using HGm.
    clear HFm HFb. intros Ht. rewrite (to_fe_ok G fit_outer_pos), curve_fit_outer, le_bytes_length. change 64 with (47 + 17) at 2. rewrite le_bytes_app.
    change (256 ^ N.of_nat 47)%N with (256 ^ 47)%N.
    set (L := le_bytes 47 t). set (R := le_bytes 17 (t / 256 ^ 47)%N).
    assert (LL : length L = 47) by apply le_bytes_length. assert (LR : length R = 17) by apply le_bytes_length.
    assert (Ec : chunks_fuel 64 47 (L ++ R) = [L; R]) by (apply (chunks_fuel_two 47 62); lia).
    rewrite Ec. cbn [map]. unfold L, R. rewrite !from_le_le. change (256 ^ N.of_nat 47)%N with (256 ^ 47)%N. change (256 ^ N.of_nat 17)%N with (256 ^ 17)%N.
    rewrite (N.mod_small (t / 256 ^ 47)); [reflexivity|]. apply N.div_lt_upper_bound; [intros X; discriminate X|]. exact Ht.
  Qed.
  Lemma hash_public h : is_hash h -> exists l, to_field_elements F h = Ok l /\ to_field_elements G (flat_map (element_le_bytes P F) l) = Ok (two (hash_input h)).
  Proof using HF HFm HFb HGm.
    intros Hh. destruct (C116_hash_elements h Hh) as (a & b & E & Ea & Eb). exists [a; b]. split; [exact E|].
    pose proof (hash_first_lt h Hh) as Ba. pose proof (hash_last_lt h Hh) as Bb. rewrite <- Ea in Ba. rewrite <- Eb in Bb. unfold hash_input. rewrite <- Ea, <- Eb.
    set (t := (into_bigint F a + 256 ^ 32 * into_bigint F b)%N). pose proof (bound33 _ _ Ba Bb) as Bt. fold t in Bt.
    assert (Et : flat_map (element_le_bytes P F) [a; b] = le_bytes 64 t).
    { cbn [flat_map]. rewrite app_nil_r. unfold element_le_bytes. rewrite HFb. change 64 with (32 + 32). rewrite le_bytes_app. change (256 ^ N.of_nat 32)%N with (256 ^ 32)%N.
      f_equal.
      - rewrite <- (le_bytes_mod 32 t). f_equal. unfold t. change (256 ^ N.of_nat 32)%N with (256 ^ 32)%N. rewrite N.mul_comm, N.mod_add by (intros X; discriminate X).
        symmetry. apply N.mod_small. eapply N.lt_trans; [exact Ba|reflexivity].
      - f_equal. unfold t. rewrite N.mul_comm, N.div_add by (intros X; discriminate X). rewrite N.div_small; [reflexivity|]. eapply N.lt_trans; [exact Ba|reflexivity]. }
    rewrite Et, outer_elements by (eapply N.lt_trans; [exact Bt|reflexivity]).
    rewrite (N.mod_small t) by (eapply N.lt_trans; [exact Bt|reflexivity]). rewrite (N.div_small t) by (eapply N.lt_trans; [exact Bt|reflexivity]). reflexivity.
  Qed.
  Theorem C116_public_inputs (hs : list bytes) : Forall is_hash hs -> exists x, agg_verifier_input P Q F G hs = Ok x /\ length x = 2 * length hs /\
    forall i, i < length hs ->
      into_bigint G (nth (2 * i) x f0) = (num (firstn 31 (nth i hs [])) + 256 ^ 32 * nth 31 (nth i hs []) 0)%N /\
      into_bigint G (nth (2 * i + 1) x f0) = 0%N.
  Proof using HF HFm HFb HG HGm.
    intros Hh. exists (flat_map two (map hash_input hs)). split.
    - assert (Hall : exists ls, rmapM (to_field_elements F) hs = Ok ls /\ rmapM (to_field_elements G) (map (fun l => flat_map (element_le_bytes P F) l) ls) = Ok (map (fun h => two (hash_input h)) hs)).
      { induction Hh as [|h hs H Hh (ls & I1 & I2)]; [now exists []|]. destruct (hash_public h H) as (l & E1 & E2). exists (l :: ls).
        cbn [rmapM map]. rewrite E1. cbn [rbind]. rewrite I1. cbn [rbind]. split; [reflexivity|]. rewrite E2. cbn [rbind]. rewrite I2. reflexivity. }
      destruct Hall as (ls & I1 & I2). unfold agg_verifier_input. rewrite I1. cbn [rbind].
      destruct (agg_loop G fit_outer_pos (map (fun l => flat_map (element_le_bytes P F) l) ls) []) as (xs & J1 & J2). rewrite J2. rewrite I2 in J1. injection J1 as <-.
      cbn [app]. f_equal. rewrite flat_map_concat_map, map_map. reflexivity.
    - split.
      + clear. induction hs as [|h hs IH]; [reflexivity|]. cbn [map flat_map]. rewrite app_length, IH. change (length (two (hash_input h))) with 2. cbn [length]. lia.
      + induction Hh as [|h hs H Hh IH]; intros i Hi; [cbn in Hi; lia|]. cbn [map flat_map]. unfold two at 1 3. destruct i as [|i].
        * cbn [Nat.mul Nat.add app nth hash_input fst snd]. rewrite !outer_small; [auto|reflexivity|].
          eapply N.lt_trans; [apply bound33; [now apply hash_first_lt|now apply hash_last_lt]|reflexivity].
        * replace (2 * S i) with (S (S (2 * i))) by lia. replace (S (S (2 * i)) + 1) with (S (S (2 * i + 1))) by lia. cbn [app nth]. apply IH. cbn in Hi. lia.
  Qed.

  (** The circuit for the hashes and proofs: it exists exactly when there are as many of both, and its assignment satisfies the
      constraints exactly when each proof is a valid Groth16 proof for the two scalars of its hash. *)
  Lemma read_hash h : is_hash h -> read_scalars (hash_input h) = [f_ofN (num (firstn 31 h)); f_ofN (nth 31 h 0%N)].
  Proof using HG HGm.
    intros Hh. pose proof (hash_first_lt h Hh) as Ba. pose proof (hash_last_lt h Hh) as Bb. unfold read_scalars, hash_input. cbn [fst snd].
    pose proof (bound33 _ _ Ba Bb) as Bt. rewrite !outer_small; [|reflexivity|eapply N.lt_trans; [exact Bt|reflexivity]].
    rewrite (N.mod_small _ (256 ^ 47)) by (eapply N.lt_trans; [exact Bt|reflexivity]). rewrite N.mul_0_r, N.add_0_r.
    rewrite (N.mul_comm (256 ^ 32)), N.mod_add, N.div_add by (intros X; discriminate X).
    rewrite (N.mod_small (num _)), (N.div_small (num _)) by (eapply N.lt_trans; [exact Ba|reflexivity]).
    rewrite N.add_0_l, (N.mod_small (nth _ _ _)) by (eapply N.lt_trans; [exact Bb|reflexivity]). reflexivity.
  Qed.
  Theorem C116_relation (vk : g16_vk P) (hs : list bytes) pfs : Forall is_hash hs -> length (vk_gamma_abc_g1 vk) = 3 ->
    exists x, agg_verifier_input P Q F G hs = Ok x /\
      (length hs <> length pfs -> agg_synth P Q F G hs pfs = Panic) /\
      (length hs = length pfs -> agg_synth P Q F G hs pfs = Ok x /\
        exists ok, agg_holds P Q F G vk x pfs = Ok ok /\
          (ok = true <-> Forall2 (fun h pf => g16_valid vk [f_ofN (num (firstn 31 h)); f_ofN (nth 31 h 0%N)] pf) hs pfs)).
  Proof using HF HFm HFb HG HGm.
    intros Hh Hvk. destruct (C72_inputs F G fit_pos fit_outer_pos hs pfs) as (x & H1 & H2). exists x. split; [exact H1|].
    split; [intros Hn; rewrite H2; now rewrite (proj2 (Nat.eqb_neq _ _) Hn)|]. intros He. rewrite He, Nat.eqb_refl in H2. split; [exact H2|].
    assert (Ex : x = flat_map two (map hash_input hs)).
    { assert (Hall : exists ls, rmapM (to_field_elements F) hs = Ok ls /\ rmapM (to_field_elements G) (map (fun l => flat_map (element_le_bytes P F) l) ls) = Ok (map (fun h => two (hash_input h)) hs)).
      { clear - Hh HF HFm HFb HGm. induction Hh as [|h hs H Hh (ls & I1 & I2)]; [now exists []|]. destruct (hash_public h H) as (l & E1 & E2). exists (l :: ls).
        cbn [rmapM map]. rewrite E1. cbn [rbind]. rewrite I1. cbn [rbind]. split; [reflexivity|]. rewrite E2. cbn [rbind]. rewrite I2. reflexivity. }
      destruct Hall as (ls & I1 & I2). unfold agg_verifier_input in H1. rewrite I1 in H1. cbn [rbind] in H1.
      destruct (agg_loop G fit_outer_pos (map (fun l => flat_map (element_le_bytes P F) l) ls) []) as (xs & J1 & J2). rewrite J2 in H1. rewrite I2 in J1. injection J1 as <-.
      injection H1 as <-. cbn [app]. rewrite flat_map_concat_map, map_map. reflexivity. }
    destruct (C116_accepts vk (map hash_input hs) pfs ltac:(now rewrite map_length) Hvk) as (ok & E1 & E2). rewrite <- Ex in E1. exists ok. split; [exact E1|].
    rewrite E2. clear - Hh HG HGm He. revert pfs He. induction Hh as [|h hs H Hh IH]; intros [|pf pfs] He; cbn in He; try lia.
    - split; constructor.
    - cbn [map]. split; intros X; inversion X; subst; constructor.
      + rewrite <- read_hash by exact H. assumption.
      + apply IH; [lia|assumption].
      + rewrite read_hash by exact H. assumption.
      + apply IH; [lia|assumption].
  Qed.
  Theorem C116_injective (hs hs' : list bytes) x : Forall is_hash hs -> Forall is_hash hs' ->
    agg_verifier_input P Q F G hs = Ok x -> agg_verifier_input P Q F G hs' = Ok x -> hs = hs'.
  Proof using HF HFm HFb HG HGm. apply C72_injective; auto using fit_pos, fit_outer_pos. now rewrite curve_element, HFb. Qed.

  (** For each hash there are 196 pairs of public inputs, of which one is computed by the verifier, accepted with its proof. *)
  Lemma inner_mod n k : f_ofN (f := pK P) (n + k * bls12_377_r)%N = f_ofN n.
  Proof using HF HFm.
    rewrite <- (ofN_into F HF (f_ofN (n + k * bls12_377_r)%N)), <- (ofN_into F HF (f_ofN n)). rewrite !(into_ofN F HF), HFm.
    rewrite N.mod_add by (intros X; discriminate X). reflexivity.
  Qed.
  Theorem C116_other_inputs_refuted (vk : g16_vk P) (h : bytes) pf j k : is_hash h -> length (vk_gamma_abc_g1 vk) = 3 -> (j <= 13)%N -> (k <= 13)%N ->
    g16_valid vk [f_ofN (num (firstn 31 h)); f_ofN (nth 31 h 0%N)] pf ->
    exists u v, (into_bigint G u + 256 ^ 47 * into_bigint G v = num (firstn 31 h) + j * bls12_377_r + 256 ^ 32 * (nth 31 h 0 + k * bls12_377_r))%N /\
      agg_holds P Q F G vk [u; v] [pf] = Ok true /\ (agg_verifier_input P Q F G [h] = Ok [u; v] <-> j = 0%N /\ k = 0%N).
  Proof using HF HFm HFb HG HGm.
    intros Hh Hvk Hj Hk Hv. pose proof (hash_first_lt h Hh) as Ba. pose proof (hash_last_lt h Hh) as Bb.
    destruct (C116_public_inputs [h] (Forall_cons _ Hh (Forall_nil _))) as (x & X1 & X2 & X3). pose proof (X3 0 ltac:(cbn; lia)) as X0. clear X3. cbn [nth Nat.mul Nat.add] in X0.
    set (a := num (firstn 31 h)) in *. set (b := nth 31 h 0%N) in *. clearbody a b.
    assert (Br : (13 * bls12_377_r + 256 ^ 31 < 256 ^ 32)%N) by reflexivity.
    assert (Bj : (a + j * bls12_377_r < 256 ^ 32)%N).
    { assert ((j * bls12_377_r <= 13 * bls12_377_r)%N) by now apply N.mul_le_mono_r. lia. }
    assert (Bk : (b + k * bls12_377_r < 256 ^ 32)%N).
    { assert ((k * bls12_377_r <= 13 * bls12_377_r)%N) by now apply N.mul_le_mono_r. assert ((256 < 256 ^ 31)%N) by reflexivity. lia. }
    set (c := (a + j * bls12_377_r)%N) in *. set (d := (b + k * bls12_377_r)%N) in *.
    set (t := (c + 256 ^ 32 * d)%N). assert (Bt : (t < 256 ^ 64)%N).
    { unfold t. change (256 ^ 64)%N with (256 ^ 32 * 256 ^ 32)%N. assert ((256 ^ 32 * d + 256 ^ 32 <= 256 ^ 32 * 256 ^ 32)%N); [|lia].
      replace (256 ^ 32 * d + 256 ^ 32)%N with (256 ^ 32 * (d + 1))%N by lia. apply N.mul_le_mono_l. lia. }
    assert (E0 : (t mod 256 ^ 47 + 256 ^ 47 * (t / 256 ^ 47) = t)%N) by (rewrite N.add_comm; symmetry; apply N.div_mod; intros X; discriminate X).
    assert (Iu : into_bigint G (f_ofN (t mod 256 ^ 47)%N) = (t mod 256 ^ 47)%N) by (apply outer_small, N.mod_lt; intros X; discriminate X).
    assert (Iv : into_bigint G (f_ofN (t / 256 ^ 47)%N) = (t / 256 ^ 47)%N).
    { apply outer_small. apply N.div_lt_upper_bound; [intros X; discriminate X|]. eapply N.lt_trans; [exact Bt|reflexivity]. }
    exists (f_ofN (t mod 256 ^ 47)%N), (f_ofN (t / 256 ^ 47)%N). split; [rewrite Iu, Iv; exact E0|]. split.
    - destruct (C116_accepts vk [(f_ofN (t mod 256 ^ 47)%N, f_ofN (t / 256 ^ 47)%N)] [pf] eq_refl Hvk) as (ok & E1 & E2).
      cbn [flat_map two fst snd app] in E1. rewrite E1. f_equal. apply E2. constructor; [|constructor]. unfold read_scalars. cbn [fst snd]. rewrite Iu, Iv.
      rewrite N.mod_mod by (intros X; discriminate X). rewrite E0. unfold t.
      rewrite (N.mul_comm (256 ^ 32)), N.mod_add, N.div_add by (intros X; discriminate X).
      rewrite (N.mod_small c), (N.div_small c) by exact Bj. rewrite N.add_0_l, (N.mod_small d) by exact Bk. unfold c, d. rewrite !inner_mod. exact Hv.
    - rewrite X1. split.
      + intros Y. assert (Y' : x = [f_ofN (t mod 256 ^ 47)%N; f_ofN (t / 256 ^ 47)%N]) by congruence. subst x. cbn [nth] in X0. rewrite Iu, Iv in X0.
        destruct X0 as [Xa Xb]. rewrite Xa, Xb, N.mul_0_r, N.add_0_r in E0. unfold t in E0.
        assert (Hbd : b = d).
        { apply (f_equal (fun n => n / 256 ^ 32)%N) in E0. rewrite !(N.mul_comm (256 ^ 32)), !N.div_add in E0 by (intros X; discriminate X).
          rewrite !N.div_small in E0; [lia|exact Bj|]. eapply N.lt_trans; [exact Ba|reflexivity]. }
        rewrite <- Hbd in E0. assert (Hac : a = c) by lia. unfold c in Hac. unfold d in Hbd. unfold bls12_377_r in Hac, Hbd. split; lia.
      + intros [-> ->]. destruct X0 as [Xa Xb]. unfold t, c, d. rewrite !N.mul_0_l, !N.add_0_r.
        destruct x as [|u [|v [|? ?]]]; try discriminate X2. cbn [nth] in Xa, Xb. f_equal.
        assert (Bs : (a + 256 ^ 32 * b < 256 ^ 47)%N) by (eapply N.lt_trans; [apply bound33; assumption|reflexivity]).
        rewrite (N.mod_small _ _ Bs), (N.div_small _ _ Bs), <- Xa, <- Xb, !(ofN_into G HG). reflexivity.
  Qed.
End Curves.
Print Assumptions C116_hash_elements.
Print Assumptions C116_blake_accepts.
Print Assumptions C116_blake_other_inputs_refuted.
Print Assumptions C116_accepts.
Print Assumptions C116_other_key.
Print Assumptions C116_public_inputs.
Print Assumptions C116_relation.
Print Assumptions C116_injective.
Print Assumptions C116_other_inputs_refuted.

(** *** The fields themselves, with groups written by their discrete logarithms *)
Section FpRepr.
  Variables (p : Z) (Hp : prime p) (k bits : nat).
  Definition fp_repr : prime_repr (Fp p Hp k bits) := mk_prime_repr (K := Fp p Hp k bits) (Z.to_N p) (fun a => Z.to_N (zm_val p a)) k.
  Lemma fp_repr_ok : (Z.to_N p <= 256 ^ N.of_nat k)%N -> prime_repr_ok fp_repr.
  Proof using.
    intros Hk. pose proof (prime_ge_2 p Hp). constructor.
    - intros x. change (Z.to_N (zm_val p x) < Z.to_N p)%N. pose proof (zm_range p Hp x). lia.
    - intros x. apply zm_eq. cbn [f_ofN Fp into_bigint fp_repr]. rewrite zm_val_of. pose proof (zm_range p Hp x). rewrite Z2N.id by lia. apply zm_mod.
    - intros n. cbn [f_ofN Fp into_bigint fp_repr pr_modulus]. rewrite zm_val_of. rewrite Z2N.inj_mod by lia. now rewrite N2Z.id.
    - exact Hk.
  Qed.
End FpRepr.
Definition R377 : prime_repr (pK P377) := fp_repr r377 prime_r377 32 253.
Definition PW : pairing := FpPair q377 prime_q377 48 377.
Definition RW : prime_repr (pK PW) := fp_repr q377 prime_q377 48 377.
Definition z377 (n : Z) : pK P377 := zm_of r377 n.
Definition ex_vk116 : g16_vk P377 := mk_g16_vk (P := P377) (z377 2) (z377 3) (z377 5) (z377 7) [z377 1; z377 2; z377 3].
Definition ex_prove116 (row : list (pK P377)) : g16_proof P377 :=
  let ic := match batch_input P377 (vk_gamma_abc_g1 ex_vk116) row with Ok x => x | _ => z377 0 end in
  mk_g16_proof (P := P377) (zm_add _ (zm_add _ (zm_mul _ (z377 2) (z377 3)) (zm_mul _ ic (z377 5))) (zm_mul _ (z377 4) (z377 7))) (z377 1) (z377 4).
Definition ex_hash116 : bytes := ex_blake [1; 2]%N.
Definition ex_row116 : list (pK P377) := [f_ofN (num (firstn 31 ex_hash116)); f_ofN (nth 31 ex_hash116 0%N)].

Example C116_hypotheses : prime_repr_ok R377 /\ prime_repr_ok RW /\ pr_modulus R377 = bls12_377_r /\ pr_bytes R377 = 32 /\
  pr_modulus RW = bw6_761_r /\ is_hash ex_hash116 /\ length (vk_gamma_abc_g1 ex_vk116) = 3 /\ g16_valid ex_vk116 ex_row116 (ex_prove116 ex_row116).
Proof.
  split; [apply fp_repr_ok; vm_compute; discriminate|]. split; [apply fp_repr_ok; vm_compute; discriminate|].
  split; [vm_compute; reflexivity|]. split; [reflexivity|]. split; [vm_compute; reflexivity|]. split; [apply ex_blake_hash|]. split; [reflexivity|].
  apply zm_eq. vm_compute. reflexivity.
Qed.
(** two hashes; the proof of the second replaced by that of the first *)
Definition ex_run116 (hs rows : list bytes) : res (list N * bool) :=
  do x <- agg_verifier_input P377 PW R377 RW hs;
  let pfs := map (fun h => ex_prove116 [f_ofN (num (firstn 31 h)); f_ofN (nth 31 h 0%N)]) rows in
  do ok <- agg_holds P377 PW R377 RW ex_vk116 x pfs;
  Ok (map (fun fe => into_bigint RW fe / 256 ^ 32)%N x, ok).
Example C116_example : let h := ex_blake [3%N] in let h' := ex_blake [4%N] in
  ex_run116 [h; h'] [h; h'] = Ok ([nth 31 h 0; 0; nth 31 h' 0; 0]%N, true) /\ ex_run116 [h; h'] [h; h] = Ok ([nth 31 h 0; 0; nth 31 h' 0; 0]%N, false).
Proof. vm_compute. split; reflexivity. Qed.
Example C116_blake_example : let w := [3%N] in exists u v, many_holds R377 ex_blake [u; v] [w] = Ok true /\ to_field_elements R377 (ex_blake w) <> Ok [u; v].
Proof.
  intros w. destruct C116_hypotheses as (H1 & _ & H3 & _).
  destruct (C116_blake_other_inputs_refuted R377 H1 H3 ex_blake w 0 1 (ex_blake_hash w)) as (u & v & _ & _ & E & N); [lia|reflexivity|].
  exists u, v. split; [exact E|]. intros X. apply N in X. lia.
Qed.

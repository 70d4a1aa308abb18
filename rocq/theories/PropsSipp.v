(** Properties C45 - C51: SIPP and its Fiat-Shamir generator. *)
Require Import List Arith NArith ZArith Lia Bool Field.
Import ListNotations.
Require Import Verif.Outcome Verif.Algebra Verif.Zp Verif.Rust Verif.InnerProducts Verif.Rng Verif.Floats Verif.Sipp
  Verif.Spec Verif.ListFacts Verif.RustFacts Verif.InnerProductFacts Verif.GipaFacts Verif.KeyFacts
  Verif.RootFacts Verif.FloatFacts Verif.SerFacts Verif.SippFacts Verif.PropsBase.

(** ** Specification: what the challenges are *)
Section Spec.
  Variables (P : pairing) (S : stream) (D : bytes -> bytes).
  Notation K := (pK P).

  (** two 64-bit outputs of the generator seeded with d, the first one low *)
  Definition draw128 (d : bytes) : K :=
    let (lo, s) := st_next_u64 S (st_from_seed S d) in
    let (hi, _) := st_next_u64 S s in
    f_ofN (N.lor (N.shiftl hi 64) lo).

  (** the challenge after the round elements zs (all rounds so far): it is drawn from
      H(z_j || ... H(z_1 || H(a, b, r, v))) *)
  Definition challenge_after (seed : bytes) (zs : list (pGT P * pGT P)) : K :=
    draw128 (hash_chain D seed (map (fun z => mser (fst z) ++ mser (snd z)) zs)).

  (** all challenges of a proof: the j-th depends on the elements up to and including round j *)
  Definition challenges_of (seed : bytes) (zs : list (pGT P * pGT P)) : list K :=
    map (fun j => challenge_after seed (firstn (Datatypes.S j) zs)) (seq 0 (length zs)).

  Lemma challenges_from (zs : list (pGT P * pGT P)) : forall rng : fsrng S,
    sipp_challenges P S D rng zs =
    map (fun j => draw128 (fold_left (fun acc m => D (m ++ acc))
                    (map (fun z => mser (fst z) ++ mser (snd z)) (firstn (Datatypes.S j) zs)) (fs_seed rng)))
        (seq 0 (length zs)).
  Proof.
    induction zs as [|[zl zr] zs IH]; intros rng; [reflexivity|].
    cbn [sipp_challenges length seq map]. unfold sipp_challenge.
    set (rng' := fs_absorb D rng (mser zl ++ mser zr)).
    destruct (fs_u128 rng') as [n rng''] eqn:En.
    assert (Hs : fs_seed rng'' = fs_seed rng').
    { unfold fs_u128, fs_next_u64 in En. destruct (st_next_u64 S (fs_r rng')) as [x s1].
      cbn [fs_r fs_seed] in En. destruct (st_next_u64 S s1) as [y s2]. injection En as <- <-. reflexivity. }
    f_equal.
    - cbn [firstn map fst snd fold_left]. unfold draw128. unfold fs_u128, fs_next_u64, rng', fs_absorb in En.
      cbn [fs_r fs_seed] in En. destruct (st_next_u64 S (st_from_seed S (D ((mser zl ++ mser zr) ++ fs_seed rng)))) as [x s1].
      cbn [fs_r fs_seed] in En. destruct (st_next_u64 S s1) as [y s2]. injection En as <- <-. reflexivity.
    - rewrite IH, <- seq_shift, map_map, Hs. reflexivity.
  Qed.

  Lemma challenges_spec seed (zs : list (pGT P * pGT P)) :
    sipp_challenges P S D (fs_from_seed S D seed) zs = challenges_of seed zs.
  Proof. rewrite challenges_from. reflexivity. Qed.

  (** the value that is claimed: sum_i r_i e(a_i, b_i) *)
  Definition sipp_value (a : list (pG1 P)) (b : list (pG2 P)) (r : list K) : pGT P :=
    big (length a) (fun i => fat r i *m pr_e P (at_ a i) (at_ b i)).
  (** (r_i a_i)_i *)
  Definition scaled_by (r : list K) (a : list (pG1 P)) : list (pG1 P) :=
    map (fun i => fat r i *m at_ a i) (seq 0 (length a)).

  Lemma scaled_by_eq a r : length a <= length r -> scaled a r = scaled_by r a.
  Proof.
    intros H. unfold scaled, scaled_by. apply (nth_ext_eq _ _ m0).
    - rewrite zipw_length, map_length, seq_length. lia.
    - intros i Hi. rewrite zipw_length in Hi. etransitivity; [apply (zipw_nth _ _ _ i m0 f0); lia|].
      symmetry. exact (at_map_range (fun i => fat r i *m at_ a i) (length a) i ltac:(lia)).
  Qed.

  Lemma scaled_by_length a r : length (scaled_by r a) = length a.
  Proof. unfold scaled_by. now rewrite map_length, seq_length. Qed.

  Lemma scaled_value a b r : pairing_sum P (scaled_by r a) b = sipp_value a b r.
  Proof.
    unfold pairing_sum, sipp_value. rewrite scaled_by_length. apply big_ext. intros i Hi.
    unfold scaled_by. rewrite (at_map_range (fun i => fat r i *m at_ a i)) by auto. apply e_scale_l.
  Qed.
End Spec.

Lemma u64_log k : u64_bound (2 ^ k) -> (Z.of_nat k < 2 ^ 24)%Z.
Proof.
  unfold u64_bound. intros H. assert (Hk : (N.of_nat k < 64)%N).
  { destruct (N.lt_ge_cases (N.of_nat k) 64) as [|Hge]; auto. exfalso.
    rewrite Nat2N.inj_pow in H. change (N.of_nat 2) with 2%N in H.
    pose proof (N.pow_le_mono_r 2 _ _ ltac:(discriminate) Hge). lia. }
  assert (2 ^ 24 = 16777216)%Z by reflexivity. lia.
Qed.

Section Props.
  Context {P : pairing} {E : penv} {S : stream} {D : bytes -> bytes}.
  Notation K := (pK P).
  Notation G1 := (pG1 P).
  Notation G2 := (pG2 P).
  Notation GT := (pGT P).
  Implicit Types (a : list G1) (b : list G2) (r : list K) (v : GT) (zs : list (GT * GT)).

  (** ** C45 *)
  (** The prover sends the cross products of the successively folded vectors and either gets through
      with all challenges non-zero, or panics at the first zero challenge. *)
  Theorem C45_prove k a b r v : 1 <= threads E -> length a = 2 ^ k -> length b = 2 ^ k -> length a <= length r ->
    let x_of := challenges_of P S D (sipp_seed P a b r v) in
    (exists zs, sipp_prove P E S D a b r v = Ok zs /\ length zs = k /\
       zs = honest_elems (x_of zs) (scaled_by P r a) b /\ Forall (fun x => x <> f0) (x_of zs)) \/
    (sipp_prove P E S D a b r v = Panic /\
     exists xs, length xs < k /\ Forall (fun x => x <> f0) xs /\
       x_of (honest_elems (xs ++ [f0]) (scaled_by P r a) b) = xs ++ [f0]).
  Proof.
    intros HE Ha Hb Hr x_of. unfold sipp_prove. rewrite Hb, Ha, Nat.eqb_refl. cbn [rassert rbind].
    rewrite (proj2 (Nat.eqb_eq _ _) (proj2 (count_ones_pow2 (2 ^ k)) (ex_intro _ k eq_refl))). cbn [rassert rbind].
    fold (scaled a r). rewrite scaled_by_eq by auto.
    destruct (prove_loop_spec E S D k HE (2 ^ k) (scaled_by P r a) b (fs_from_seed S D (sipp_seed P a b r v)) []
                (Nat.lt_le_incl _ _ (Nat.pow_gt_lin_r 2 k ltac:(lia))) ltac:(now rewrite scaled_by_length) Hb)
      as [(zs & H1 & H2 & H3 & H4 & _)|(H1 & xs & H2 & H3 & H4)].
    - left. exists zs. rewrite challenges_spec in *. auto.
    - right. split; [exact H1|]. exists xs. rewrite challenges_spec in *. auto.
  Qed.

  Theorem C45_complete k a b r (E' : penv) : 1 <= threads E ->
    1 <= k -> u64_bound (length a) -> length a = 2 ^ k -> length b = 2 ^ k -> length a <= length r ->
    let v := sipp_value P a b r in
    let x_of := challenges_of P S D (sipp_seed P a b r v) in
    (exists zs, sipp_prove P E S D a b r v = Ok zs /\ sipp_verify P E' S D a b r v zs = Ok true) \/
    (sipp_prove P E S D a b r v = Panic /\
     exists xs, length xs < k /\ Forall (fun x => x <> f0) xs /\
       x_of (honest_elems (xs ++ [f0]) (scaled_by P r a) b) = xs ++ [f0]).
  Proof.
    intros HE Hk Hu Ha Hb Hr v x_of. unfold sipp_prove. rewrite Hb, Ha, Nat.eqb_refl. cbn [rassert rbind].
    rewrite (proj2 (Nat.eqb_eq _ _) (proj2 (count_ones_pow2 (2 ^ k)) (ex_intro _ k eq_refl))). cbn [rassert rbind].
    fold (scaled a r). rewrite scaled_by_eq by auto.
    destruct (prove_loop_spec E S D k HE (2 ^ k) (scaled_by P r a) b (fs_from_seed S D (sipp_seed P a b r v)) []
                (Nat.lt_le_incl _ _ (Nat.pow_gt_lin_r 2 k ltac:(lia))) ltac:(now rewrite scaled_by_length) Hb)
      as [(zs & H1 & H2 & H3 & H4 & H5)|(H1 & xs & H2 & H3 & H4)].
    - left. exists zs. split; [exact H1|].
      rewrite (sipp_verify_eq E' S D k a b r v zs) by (auto; try (rewrite Ha in Hu; now apply u64_log); lia).
      unfold seeded. f_equal. apply meqb_spec. rewrite scaled_by_eq by auto.
      unfold fold_eq in H5. rewrite H5. f_equal. rewrite dot_pairing_sum by (rewrite scaled_by_length; congruence).
      apply scaled_value.
    - right. split; [exact H1|]. exists xs. rewrite challenges_spec in H4. auto.
  Qed.

  (** ** C47 *)
  Theorem C47_verify_equation k a b r v zs :
    1 <= k -> u64_bound (length a) -> length a = 2 ^ k -> length b = 2 ^ k -> length zs = k -> length a <= length r ->
    let xs := challenges_of P S D (sipp_seed P a b r v) zs in
    (* s_i: the challenge of round j on bit k - 1 - j of i *)
    let s := fun i => subset_prod (rev xs) i in
    let s_inv := fun i => subset_prod (rev (map inv0 xs)) i in
    let equation :=
      pr_e P (big (2 ^ k) (fun i => (s i *f fat r i) *m at_ a i)) (big (2 ^ k) (fun i => s_inv i *m at_ b i)) =
      v +m big k (fun j => fat xs j *m fst (nth j zs (m0, m0)) +m inv0 (fat xs j) *m snd (nth j zs (m0, m0))) in
    (equation -> sipp_verify P E S D a b r v zs = Ok true) /\
    (~ equation -> sipp_verify P E S D a b r v zs = Ok false).
  Proof.
    intros Hk Hu Ha Hb Hz Hr xs s s_inv equation.
    assert (Hxl : length xs = k) by (unfold xs, challenges_of; now rewrite map_length, seq_length).
    rewrite (sipp_verify_eq E S D k a b r v zs) by (auto; try (rewrite Ha in Hu; now apply u64_log); lia).
    unfold seeded. rewrite challenges_spec. fold xs.
    assert (HA : dot smul (scaled a r) (subs (rev xs) : list (fmod K)) = big (2 ^ k) (fun i => (s i *f fat r i) *m at_ a i)).
    { rewrite scaled_by_eq, dot_msm_sum by (rewrite ?scaled_by_length, ?subs_length, ?rev_length; congruence || lia).
      unfold msm_sum. rewrite scaled_by_length, Ha. apply big_ext. intros i Hi.
      unfold scaled_by. rewrite (at_map_range (fun i => fat r i *m at_ a i)) by lia.
      rewrite subs_nth by (rewrite rev_length, Hxl; auto). symmetry. apply mscale_mul. }
    assert (HB : dot smul b (subs (rev (map (batch_inverse P) xs)) : list (fmod K)) = big (2 ^ k) (fun i => s_inv i *m at_ b i)).
    { rewrite dot_msm_sum by (rewrite subs_length, rev_length, map_length; congruence).
      unfold msm_sum. rewrite Hb. apply big_ext. intros i Hi.
      rewrite subs_nth by (rewrite rev_length, map_length, Hxl; auto).
      unfold s_inv. rewrite (map_ext _ inv0 inv0_batch). reflexivity. }
    assert (HZ : zsum zs xs = big k (fun j => fat xs j *m fst (nth j zs (m0, m0)) +m inv0 (fat xs j) *m snd (nth j zs (m0, m0)))).
    { clear - Hxl Hz. clearbody xs. revert k zs Hz Hxl. induction xs as [|x xs IH]; intros k [|z zs] Hz Hx; cbn [length] in *;
        try (subst; discriminate).
      - subst k. reflexivity.
      - subst k. rewrite zsum_cons, big_S_l. cbn [nth]. unfold fat at 1 2. cbn [nth]. f_equal; [now rewrite inv0_batch|].
        apply IH; lia. }
    rewrite HA, HB, HZ. fold equation. unfold equation. split; intros H; f_equal.
    - now apply meqb_spec.
    - destruct (meqb _ _) eqn:He; auto. apply meqb_spec in He. contradiction.
  Qed.

  (** ** C46 *)
  (** The statement (vectors and value) after the rounds of the proof prefix [pre]. *)
  Definition statement_after a b r v (pre : list (GT * GT)) : list G1 * list G2 * GT :=
    sipp_rounds (scaled_by P r a, b, v) pre (challenges_of P S D (sipp_seed P a b r v) pre).

  Lemma half_fold_length {M : module K} (x : K) (l : list M) h : length l = h + h -> length (half_fold x l) = h.
  Proof. intros H. unfold half_fold. rewrite map_length, seq_length, H. apply half_double. Qed.

  Lemma sipp_rounds_length zs xs : forall k st, length zs <= length xs ->
    length zs <= k -> length (fst (fst st)) = 2 ^ k -> length (snd (fst st)) = 2 ^ k ->
    length (fst (fst (sipp_rounds st zs xs))) = 2 ^ (k - length zs) /\
    length (snd (fst (sipp_rounds st zs xs))) = 2 ^ (k - length zs).
  Proof.
    revert xs. induction zs as [|z zs IH]; intros xs k [[a b] v] Hx Hk Ha Hb; cbn [fst snd length] in *.
    - rewrite Nat.sub_0_r. auto.
    - destruct xs as [|x xs]; cbn [length] in *; [lia|]. destruct k as [|k]; [lia|]. cbn [sipp_rounds Nat.sub].
      assert (2 ^ Datatypes.S k = 2 ^ k + 2 ^ k) by (cbn [Nat.pow]; lia).
      apply IH; try lia; cbn [sipp_round fst snd]; apply half_fold_length; congruence.
  Qed.

  (** For every prefix of a proof and every next pair of elements at most 3 challenges are bad. *)
  Theorem C46_few_bad_challenges k a b r v pre z (l : list K) :
    length a = 2 ^ k -> length b = 2 ^ k -> length pre < k ->
    NoDup l -> (forall x, In x l -> sipp_bad (statement_after a b r v pre) z x) -> length l <= 3.
  Proof.
    intros Ha Hb Hp Hnd Hbad.
    destruct (sipp_rounds_length pre (challenges_of P S D (sipp_seed P a b r v) pre) k (scaled_by P r a, b, v))
      as [H1 H2]; try (cbn [fst snd]; rewrite ?scaled_by_length; auto; lia).
    { unfold challenges_of. rewrite map_length, seq_length. lia. }
    fold (statement_after a b r v pre) in H1, H2.
    destruct (statement_after a b r v pre) as [[a' b'] v']. cbn [fst snd] in *.
    apply (sipp_bad_bound a' b' v' z l); auto; [|congruence].
    exists (2 ^ (k - length pre - 1)). rewrite H1. replace (k - length pre) with (Datatypes.S (k - length pre - 1)) at 1 by lia.
    cbn [Nat.pow]. lia.
  Qed.

  Theorem C46_sound a b r v zs :
    u64_bound (length a) ->
    sipp_verify P E S D a b r v zs = Ok true -> v <> sipp_value P a b r ->
    exists i, i < length zs /\
      sipp_bad (statement_after a b r v (firstn i zs)) (nth i zs (m0, m0))
               (challenge_after P S D (sipp_seed P a b r v) (firstn (Datatypes.S i) zs)).
  Proof.
    intros Hu H Hv. destruct (sipp_verify_inv E S D a b r v zs true) as (k & Hk & Ha & Hb & Hz & Hr); auto.
    { assert (length a = 2 ^ Nat.log2 (length a)) as Hl; [|rewrite Hl in Hu; now apply u64_log].
      unfold sipp_verify in H. apply rbind_ok in H as [u1 [H1 _]]. apply rassert_ok, Nat.eqb_eq, count_ones_pow2 in H1 as [k Hk].
      rewrite Hk at 1. now rewrite Hk, Nat.log2_pow2 by lia. }
    rewrite (sipp_verify_eq E S D k a b r v zs) in H by (auto; rewrite Ha in Hu; now apply u64_log).
    injection H as H. apply meqb_spec in H. unfold seeded in H. rewrite challenges_spec in H. set (xs := challenges_of _ _ _ _ _) in H.
    assert (Hxl : length xs = k) by (unfold xs, challenges_of; now rewrite map_length, seq_length).
    rewrite scaled_by_eq in H by lia.
    destruct (sipp_rounds_sound k (scaled_by P r a) b v zs xs ltac:(now rewrite scaled_by_length) Hb Hz Hxl H)
      as (i & Hi & Hbad).
    { cbn [sipp_true]. now rewrite scaled_value. }
    exists i. split; [lia|].
    replace (challenge_after P S D (sipp_seed P a b r v) (firstn (Datatypes.S i) zs)) with (nth i xs f0).
    - unfold statement_after. replace (challenges_of P S D (sipp_seed P a b r v) (firstn i zs)) with (firstn i xs); [exact Hbad|].
      unfold xs. rewrite <- !challenges_spec. symmetry. apply challenges_firstn.
    - exact (at_map_range (M := fmod K) (fun j => challenge_after P S D (sipp_seed P a b r v) (firstn (Datatypes.S j) zs))
               (length zs) i ltac:(lia)).
  Qed.

  (** ** C48 *)
  Definition sipp_shape a b r zs : Prop :=
    exists k, 1 <= k /\ length a = 2 ^ k /\ length b = 2 ^ k /\ length zs = k /\ length a <= length r.

  Theorem C48_verify_outcome a b r v zs : u64_bound (length a) ->
    (sipp_shape a b r zs -> sipp_verify P E S D a b r v zs = Ok true \/ sipp_verify P E S D a b r v zs = Ok false) /\
    (~ sipp_shape a b r zs -> sipp_verify P E S D a b r v zs = Panic).
  Proof.
    intros Hu. split.
    - intros (k & Hk & Ha & Hb & Hz & Hr).
      rewrite (sipp_verify_eq E S D k a b r v zs) by (auto; try (rewrite Ha in Hu; now apply u64_log); lia).
      destruct (meqb _ _); auto.
    - intros Hn. unfold sipp_verify.
      destruct (Nat.eqb_spec (count_ones (length a)) 1) as [H1|]; [|reflexivity]. apply count_ones_pow2 in H1 as [k Ha].
      cbn [rassert rbind]. destruct (Nat.leb_spec 2 (length a)) as [H2|]; [|reflexivity]. cbn [rassert rbind].
      destruct (Nat.eqb_spec (length a) (length b)) as [Hb|]; [|reflexivity]. cbn [rassert rbind].
      assert (Hk : 1 <= k) by (destruct k; [rewrite Ha in H2; cbn in H2; lia|lia]).
      pose proof Hu as Hu'. rewrite Ha in Hu'. apply u64_log in Hu'.
      destruct (f32_eqb _ _) eqn:Hf; [|reflexivity]. rewrite Ha, Nat.log2_pow2 in Hf by lia.
      apply f32_rounds_eq in Hf; auto. cbn [rassert rbind].
      destruct (Nat.le_gt_cases (length a) (length r)) as [Hr|Hr].
      { exfalso. apply Hn. exists k. repeat split; auto; congruence. }
      unfold msm at 1. destruct (Nat.eqb_spec (length a) (length (zipw fmul (sipp_s_loop P 0 (length zs) (sipp_challenges P S D (fs_from_seed S D (sipp_seed P a b r v)) zs) (repeat f1 (length a))) r))) as [He|He].
      + rewrite zipw_length in He. lia.
      + reflexivity.
  Qed.

  Theorem C48_prove_validates a b r v :
    length a <> length b \/ (forall k, length a <> 2 ^ k) -> sipp_prove P E S D a b r v = Panic.
  Proof.
    intros H. unfold sipp_prove. destruct (Nat.eqb_spec (length a) (length b)) as [Hb|]; [|reflexivity]. cbn [rassert rbind].
    destruct (Nat.eqb_spec (count_ones (length a)) 1) as [H1|]; [|reflexivity]. apply count_ones_pow2 in H1 as [k Ha].
    exfalso. destruct H as [H|H]; [contradiction|]. exact (H k Ha).
  Qed.

  (** ** C49 *)
  (** Not so for vectors of length one, for any value: prove returns a proof, verify panics. *)
  Theorem C49_length_one_refuted (x : G1) (y : G2) r v :
    sipp_prove P E S D [x] [y] r v = Ok [] /\ forall zs, sipp_verify P E S D [x] [y] r v zs = Panic.
  Proof. split; [unfold sipp_prove; destruct r; reflexivity|reflexivity]. Qed.

  (** Nor for coefficients fewer than the vectors: [zip] truncates, and prove may still return a proof. *)
  Theorem C49_short_coefficients_refuted (x0 x1 : G1) (y0 y1 : G2) (r0 : K) v :
    1 <= threads E ->
    let z := pr_e P (r0 *m x0) y1 in
    challenge_after P S D (sipp_seed P [x0; x1] [y0; y1] [r0] v) [(m0, z)] <> f0 ->
    sipp_prove P E S D [x0; x1] [y0; y1] [r0] v = Ok [(m0, z)] /\
    forall zs, sipp_verify P E S D [x0; x1] [y0; y1] [r0] v zs = Panic.
  Proof.
    intros HE z Hx. split.
    - unfold sipp_prove. cbn [length Nat.eqb rassert rbind count_ones]. cbn [zipw].
      change (count_ones 2 =? 1) with true. cbn [rassert rbind].
      cbn [sipp_prove_loop Nat.eqb]. change (2 / 2) with 1.
      assert (Hs1 : slice_to [r0 *m x0] 1 = Ok [r0 *m x0]) by reflexivity.
      assert (Hs2 : slice_from [r0 *m x0] 1 = Ok []) by reflexivity.
      assert (Hs3 : slice_to [y0; y1] 1 = Ok [y0]) by reflexivity.
      assert (Hs4 : slice_from [y0; y1] 1 = Ok [y1]) by reflexivity.
      rewrite Hs1, Hs2, Hs3, Hs4. cbn [rbind].
      rewrite (product_of_pairings_dot P E [r0 *m x0] [y1]) by auto. rewrite dot_single. fold z.
      replace (product_of_pairings P E [] [y0]) with (Ok (m0 : GT)).
      2:{ change (m0 : GT) with (dot (pr_e P) [] []). rewrite <- (product_of_pairings_dot P E [] []) by auto.
          unfold product_of_pairings, product_of_pairings_with_coeffs. cbn [length repeat zipw].
          assert (Hc : chunk_size E 0 = 1). { unfold chunk_size. destruct (Nat.leb_spec (threads E) 0); [lia|reflexivity]. }
          rewrite Hc. reflexivity. }
      cbn [rbind]. pose proof (challenges_spec P S D (sipp_seed P [x0; x1] [y0; y1] [r0] v) [(m0, z)]) as Hc.
      cbn [sipp_challenges] in Hc. destruct (sipp_challenge P S D _ m0 z) as [c rng'].
      unfold challenges_of in Hc. cbn [length seq map firstn] in Hc. injection Hc as Hc. rewrite <- Hc in Hx.
      rewrite finverse_neq by auto. reflexivity.
    - intros zs. destruct (C48_verify_outcome [x0; x1] [y0; y1] [r0] v zs) as [_ H].
      + unfold u64_bound. cbn. reflexivity.
      + apply H. intros (k & _ & _ & _ & _ & Hl). cbn in Hl. lia.
  Qed.

  (** What does hold: from two elements on, with enough coefficients, every proof that prove returns
      is processed by verify, and is accepted for the right value. *)
  Theorem C49_provable_is_verifiable_partial a b r v zs (E' : penv) : 1 <= threads E ->
    2 <= length a -> u64_bound (length a) -> length a <= length r ->
    sipp_prove P E S D a b r v = Ok zs ->
    exists ok, sipp_verify P E' S D a b r v zs = Ok ok /\ (ok = true <-> v = sipp_value P a b r).
  Proof.
    intros HE H2 Hu Hr H.
    assert (Hl : length a = length b).
    { destruct (Nat.eq_dec (length a) (length b)); auto. rewrite C48_prove_validates in H by auto. discriminate. }
    assert (Hk : exists k, length a = 2 ^ k).
    { pose proof H as H'. unfold sipp_prove in H'. apply rbind_ok in H' as [u1 [_ H']]. apply rbind_ok in H' as [u2 [H1 _]].
      now apply rassert_ok, Nat.eqb_eq, count_ones_pow2 in H1. }
    destruct Hk as [k Ha]. assert (Hb : length b = 2 ^ k) by congruence.
    assert (Hk : 1 <= k) by (destruct k; [rewrite Ha in H2; cbn in H2; lia|lia]).
    unfold sipp_prove in H. rewrite Hb, Ha, Nat.eqb_refl in H. cbn [rassert rbind] in H.
    rewrite (proj2 (Nat.eqb_eq _ _) (proj2 (count_ones_pow2 (2 ^ k)) (ex_intro _ k eq_refl))) in H. cbn [rassert rbind] in H.
    fold (scaled a r) in H. rewrite scaled_by_eq in H by auto.
    destruct (prove_loop_spec E S D k HE (2 ^ k) (scaled_by P r a) b (fs_from_seed S D (sipp_seed P a b r v)) []
                (Nat.lt_le_incl _ _ (Nat.pow_gt_lin_r 2 k ltac:(lia))) ltac:(now rewrite scaled_by_length) Hb)
      as [(zs' & H1 & Hz & _ & _ & H5)|(H1 & _)]; rewrite H1 in H; [|discriminate].
    injection H as H; cbn [app] in H. subst zs'.
    rewrite (sipp_verify_eq E' S D k a b r v zs) by (auto; try (rewrite Ha in Hu; now apply u64_log); lia).
    unfold seeded. eexists. split; [reflexivity|]. rewrite meqb_spec, scaled_by_eq by auto.
    unfold fold_eq in H5. rewrite H5. rewrite dot_pairing_sum, scaled_value by (rewrite scaled_by_length; congruence).
    split; intros He; [|now rewrite He]. rewrite !(madd_comm _ _ _ (zsum _ _)) in He. apply madd_cancel_l in He. congruence.
  Qed.

  (** ** C50 *)
  Theorem C50_seed_binding a a' b b' r r' v v' :
    u64_bound (length a) -> u64_bound (length a') -> u64_bound (length b) -> u64_bound (length b') ->
    u64_bound (length r) -> u64_bound (length r') ->
    prefix_free (@mser _ G1) -> prefix_free (@mser _ G2) -> prefix_free (@fser K) -> prefix_free (@mser _ GT) ->
    sipp_seed P a b r v = sipp_seed P a' b' r' v' -> a = a' /\ b = b' /\ r = r' /\ v = v'.
  Proof. apply sipp_seed_inj. Qed.

  (** The generator state after any number of rounds binds the statement and all round elements:
      equal states for different data exhibit a collision of the digest. *)
  Theorem C50_transcript_binding a a' b b' r r' v v' zs zs' :
    u64_bound (length a) -> u64_bound (length a') -> u64_bound (length b) -> u64_bound (length b') ->
    u64_bound (length r) -> u64_bound (length r') ->
    prefix_free (@mser _ G1) -> prefix_free (@mser _ G2) -> prefix_free (@fser K) -> prefix_free (@mser _ GT) ->
    length zs = length zs' ->
    let ser := fun z : GT * GT => mser (fst z) ++ mser (snd z) in
    hash_chain D (sipp_seed P a b r v) (map ser zs) = hash_chain D (sipp_seed P a' b' r' v') (map ser zs') ->
    (a = a' /\ b = b' /\ r = r' /\ v = v' /\ zs = zs') \/ exists m m', m <> m' /\ D m = D m'.
  Proof.
    intros U1 U2 U3 U4 U5 U6 F1 F2 FF FT Hl ser.
    assert (Hdec : forall m m' : bytes, m = m' \/ m <> m').
    { intros m m'. destruct (list_eq_dec N.eq_dec m m'); auto. }
    revert zs' Hl. induction zs as [|z zs IH] using rev_ind; intros zs' Hl H.
    - destruct zs'; [|discriminate]. cbn in H.
      destruct (Hdec (sipp_seed P a b r v) (sipp_seed P a' b' r' v')) as [He|He]; [|right; eauto].
      apply sipp_seed_inj in He as (-> & -> & -> & ->); auto. left. auto 10.
    - destruct (rev_ind (fun l => length (zs ++ [z]) = length l -> l = [] \/ exists l' z', l = l' ++ [z'])
                  (fun _ => or_introl eq_refl) (fun z' l' _ _ => or_intror (ex_intro _ l' (ex_intro _ z' eq_refl))) zs' Hl)
        as [->|(l' & z' & ->)].
      { rewrite app_length in Hl. cbn in Hl. lia. }
      rewrite !app_length in Hl. cbn in Hl. rewrite !map_app in H. unfold hash_chain in H. rewrite !fold_left_app in H.
      cbn [map fold_left] in H.
      fold (hash_chain D (sipp_seed P a b r v) (map ser zs)) (hash_chain D (sipp_seed P a' b' r' v') (map ser l')) in H.
      destruct (Hdec (ser z ++ hash_chain D (sipp_seed P a b r v) (map ser zs))
                     (ser z' ++ hash_chain D (sipp_seed P a' b' r' v') (map ser l'))) as [He|He]; [|right; eauto].
      apply sipp_absorb_inj in He as (Hz1 & Hz2 & He); auto.
      destruct (IH l' ltac:(lia) He) as [(-> & -> & -> & -> & ->)|Hc]; [left|right; exact Hc].
      repeat split; auto. f_equal. f_equal. destruct z, z'; cbn in *; congruence.
  Qed.

  (** The challenges of the verifier (lib.rs 134-146) are drawn from exactly these states: the one of round j + 1 from the
      state after the statement and the elements of rounds 1, ..., j + 1. *)
  Theorem C50_challenges a b r v (zs : list (GT * GT)) j : j < length zs ->
    let state := hash_chain D (sipp_seed P a b r v) (map (fun z => mser (fst z) ++ mser (snd z)) (firstn (Datatypes.S j) zs)) in
    nth j (sipp_challenges P S D (fs_from_seed S D (sipp_seed P a b r v)) zs) f0 = draw128 P S state.
  Proof.
    intros Hj. cbv zeta. rewrite challenges_spec. unfold challenges_of.
    rewrite (nth_indep _ f0 (challenge_after P S D (sipp_seed P a b r v) (firstn (Datatypes.S (length zs)) zs))) by (rewrite map_length, seq_length; exact Hj).
    rewrite (map_nth (fun j => challenge_after P S D (sipp_seed P a b r v) (firstn (Datatypes.S j) zs))), seq_nth by exact Hj. reflexivity.
  Qed.

  (** ** C51 *)
  (** After an absorb everything that follows (any mix of draws and further absorbs) depends only on the hash
      chain of the seed and the absorbed messages: draws made before do not matter. *)
  Theorem C51_state_is_hash_chain s s' h h' m m' ops :
    hash_chain D s (absorbed h ++ [m]) = hash_chain D s' (absorbed h' ++ [m']) ->
    fs_run S D ops (snd (fs_run S D (h ++ [OpAbsorb m]) (fs_from_seed S D s))) =
    fs_run S D ops (snd (fs_run S D (h' ++ [OpAbsorb m']) (fs_from_seed S D s'))).
  Proof. intros H. rewrite !fs_run_absorb_state. cbn zeta. now rewrite H. Qed.

  Theorem C51_draws_do_not_matter s h h' m ops : absorbed h = absorbed h' ->
    fs_run S D ops (snd (fs_run S D (h ++ [OpAbsorb m]) (fs_from_seed S D s))) =
    fs_run S D ops (snd (fs_run S D (h' ++ [OpAbsorb m]) (fs_from_seed S D s))).
  Proof. intros H. apply C51_state_is_hash_chain. now rewrite H. Qed.

  Theorem C51_seed_absorb s m :
    fs_absorb D (fs_from_seed S D s) m = fs_from_seed S D (m ++ D s).
  Proof. reflexivity. Qed.

  (** the state after the last absorb, explicitly *)
  Theorem C51_state s h m :
    snd (fs_run S D (h ++ [OpAbsorb m]) (fs_from_seed S D s)) =
    let d := hash_chain D s (absorbed h ++ [m]) in mk_fsrng (st_from_seed S d) d.
  Proof. apply fs_run_absorb_state. Qed.

  (** ** Specification: what is drawn from the ChaCha generator itself, by draws without an absorb between them *)
  Fixpoint drawn (draws : list fs_op) (c : st_state S) : list fs_out :=
    match draws with
    | [] => []
    | OpAbsorb _ :: draws => OutNone :: drawn draws c
    | OpU32 :: draws => OutN (fst (st_next_u32 S c)) :: drawn draws (snd (st_next_u32 S c))
    | OpU64 :: draws => OutN (fst (st_next_u64 S c)) :: drawn draws (snd (st_next_u64 S c))
    | OpFill n :: draws => OutB (fst (st_fill_bytes S n c)) :: drawn draws (snd (st_fill_bytes S n c))
    end.
  Lemma draws_run draws : absorbed draws = [] -> forall (g : fsrng S), fst (fs_run S D draws g) = drawn draws (fs_r g).
  Proof.
    induction draws as [|o draws IH]; intros H g; [reflexivity|]. destruct o; [discriminate|..]; cbn [absorbed] in H; cbn [fs_run fs_step drawn].
    - unfold fs_next_u32. destruct (st_next_u32 S (fs_r g)) as [x c]. cbn [fst snd]. specialize (IH H (mk_fsrng c (fs_seed g))).
      destruct (fs_run S D draws _) as [xs g']. cbn [fst fs_r] in *. now rewrite IH.
    - unfold fs_next_u64. destruct (st_next_u64 S (fs_r g)) as [x c]. cbn [fst snd]. specialize (IH H (mk_fsrng c (fs_seed g))).
      destruct (fs_run S D draws _) as [xs g']. cbn [fst fs_r] in *. now rewrite IH.
    - unfold fs_fill_bytes. destruct (st_fill_bytes S n (fs_r g)) as [x c]. cbn [fst snd]. specialize (IH H (mk_fsrng c (fs_seed g))).
      destruct (fs_run S D draws _) as [xs g']. cbn [fst fs_r] in *. now rewrite IH.
  Qed.

  (** All outputs: the draws up to the next absorb are those of ChaCha seeded with the hash chain so far. *)
  Theorem C51_outputs s h draws : absorbed draws = [] ->
    fst (fs_run S D draws (fs_from_seed S D s)) = drawn draws (st_from_seed S (D s)) /\
    forall m, fst (fs_run S D draws (snd (fs_run S D (h ++ [OpAbsorb m]) (fs_from_seed S D s)))) =
              drawn draws (st_from_seed S (hash_chain D s (absorbed h ++ [m]))).
  Proof.
    intros H. split; [now rewrite draws_run|]. intros m. rewrite draws_run by exact H. now rewrite fs_run_absorb_state.
  Qed.
End Props.
Print Assumptions C45_prove.
Print Assumptions C45_complete.
Print Assumptions C46_few_bad_challenges.
Print Assumptions C46_sound.
Print Assumptions C47_verify_equation.
Print Assumptions C48_verify_outcome.
Print Assumptions C48_prove_validates.
Print Assumptions C49_length_one_refuted.
Print Assumptions C49_short_coefficients_refuted.
Print Assumptions C49_provable_is_verifiable_partial.
Print Assumptions C50_seed_binding.
Print Assumptions C50_transcript_binding.
Print Assumptions C50_challenges.
Print Assumptions C51_state_is_hash_chain.
Print Assumptions C51_draws_do_not_matter.
Print Assumptions C51_seed_absorb.
Print Assumptions C51_state.
Print Assumptions C51_outputs.

(** ** Concrete cases *)
(** a generator that returns the sum of the seed bytes, then zeros *)
Definition toy_stream : stream := {|
  st_state := N; st_from_seed := fun b => fold_left N.add b 0%N;
  st_next_u32 := fun s => (s, 0%N); st_next_u64 := fun s => (s, 0%N); st_fill_bytes := fun n s => (repeat s n, 0%N) |}.
Definition five_digest (_ : bytes) : bytes := [5%N].

Definition ex_a := zl [2; 3; 4; 5]%Z.
Definition ex_b := zl [7; 8; 9; 10]%Z.
Definition ex_r := zl [1; 2; 3; 1; 99]%Z.
Definition ex_sipp (v w : Z) : res bool :=
  do zs <- sipp_prove ZPair ex_env toy_stream toy_digest ex_a ex_b ex_r (zq v);
  sipp_verify ZPair seq_env toy_stream toy_digest ex_a ex_b ex_r (zq w) zs.

Example C45_example : sipp_value ZPair ex_a ex_b ex_r = zq 220 /\ ex_sipp 220 220 = Ok true.
Proof. split; vm_compute; reflexivity. Qed.
Example C45_panic_example :
  sipp_prove ZPair ex_env toy_stream (fun _ => [202%N]) ex_a ex_b ex_r (zq 220) = Panic.
Proof. vm_compute. reflexivity. Qed.
(** a wrong value is rejected ... *)
Example C47_example : ex_sipp 219 219 = Ok false /\ ex_sipp 220 219 = Ok false.
Proof. split; vm_compute; reflexivity. Qed.
(** ... but when the challenge (here 5, 1/5 = 81) can be foreseen a wrong value is accepted: 38 is right *)
Example C46_example :
  sipp_value ZPair (zl [2; 3]%Z) (zl [7; 8]%Z) (zl [1; 1]%Z) = zq 38 /\
  sipp_verify ZPair ex_env toy_stream five_digest (zl [2; 3]%Z) (zl [7; 8]%Z) (zl [1; 1]%Z) (zq 39)
    [(zq (21 - 81), zq 16)] = Ok true.
Proof. split; vm_compute; reflexivity. Qed.
Example C48_example :
  sipp_verify ZPair ex_env toy_stream toy_digest ex_a ex_b ex_r (zq 220) [(zq 1, zq 2); (zq 3, zq 4)] = Ok false /\
  sipp_verify ZPair ex_env toy_stream toy_digest ex_a ex_b ex_r (zq 220) [(zq 1, zq 2)] = Panic /\
  sipp_verify ZPair ex_env toy_stream toy_digest ex_a ex_b (zl [1; 2; 3]%Z) (zq 220) [(zq 1, zq 2); (zq 3, zq 4)] = Panic /\
  sipp_verify ZPair ex_env toy_stream toy_digest (zl [1; 2; 3]%Z) (zl [1; 2; 3]%Z) (zl [1; 2; 3]%Z) (zq 220) [(zq 1, zq 2)] = Panic.
Proof. repeat split; vm_compute; reflexivity. Qed.
Example C49_example :
  (do zs <- sipp_prove ZPair ex_env toy_stream toy_digest (zl [2]%Z) (zl [7]%Z) (zl [3]%Z) (zq 42);
   Ok (length zs)) = Ok 0 /\
  (do zs <- sipp_prove ZPair ex_env toy_stream five_digest (zl [2; 3]%Z) (zl [7; 8]%Z) (zl [1]%Z) (zq 14);
   Ok (length zs)) = Ok 1.
Proof. split; vm_compute; reflexivity. Qed.
Example C50_example : prefix_free (@mser _ (pG1 ZPair)) /\ prefix_free (@fser ZP) /\
  hash_chain toy_digest (sipp_seed ZPair ex_a ex_b ex_r (zq 220)) [] <>
  hash_chain toy_digest (sipp_seed ZPair ex_a ex_b ex_r (zq 219)) [].
Proof.
  assert (H : prefix_free (@fser ZP)).
  { intros x y u w H. cbn in H. injection H as H ->. split; auto. apply zp_eq.
    apply (f_equal Z.of_N) in H. pose proof (zp_range x). pose proof (zp_range y).
    rewrite !Z2N.id in H by lia. exact H. }
  split; [exact H|]. split; [exact H|]. vm_compute. discriminate.
Qed.
Example C51_example :
  fs_run toy_stream toy_digest [OpU64; OpU32; OpAbsorb [9%N]; OpU64]
    (snd (fs_run toy_stream toy_digest ([OpU64; OpFill 3; OpAbsorb [1%N]; OpU32] ++ [OpAbsorb [2%N]]) (fs_from_seed toy_stream toy_digest [7%N]))) =
  fs_run toy_stream toy_digest [OpU64; OpU32; OpAbsorb [9%N]; OpU64]
    (snd (fs_run toy_stream toy_digest ([OpAbsorb [1%N]] ++ [OpAbsorb [2%N]]) (fs_from_seed toy_stream toy_digest [7%N]))).
Proof. vm_compute. reflexivity. Qed.
Example C51_outputs_example :
  fst (fs_run toy_stream toy_digest [OpU64; OpFill 3; OpU32] (snd (fs_run toy_stream toy_digest ([OpU64] ++ [OpAbsorb [2%N]]) (fs_from_seed toy_stream toy_digest [7%N])))) =
  drawn (S := toy_stream) [OpU64; OpFill 3; OpU32] (st_from_seed toy_stream (toy_digest ([2%N] ++ toy_digest [7%N]))) /\
  drawn (S := toy_stream) [OpU64] (st_from_seed toy_stream (toy_digest [7%N])) <> drawn (S := toy_stream) [OpU64] (st_from_seed toy_stream (toy_digest [8%N])).
Proof. split; vm_compute; [reflexivity|discriminate]. Qed.

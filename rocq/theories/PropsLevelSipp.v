(** Property C118: SIPP in numbers: how many hash functions let the honest prover fail, and how many let a prover of a wrong value
    succeed. *)
Require Import List Arith NArith ZArith Lia Bool Permutation Field.
Import ListNotations.
Require Import Verif.Outcome Verif.Algebra Verif.Zp Verif.Rust Verif.InnerProducts Verif.Rng Verif.Sipp
  Verif.Spec Verif.ListFacts Verif.RustFacts Verif.InnerProductFacts Verif.GipaFacts Verif.KeyFacts
  Verif.RootFacts Verif.SerFacts Verif.SippFacts Verif.Forking Verif.Oracle Verif.PropsBase Verif.PropsSipp Verif.PropsForking Verif.PropsOracle
  Verif.Searches Verif.PropsLive Verif.PropsGipaOracle Verif.Pocklington Verif.PrimeFields Verif.PropsSearches Verif.Circuits Verif.CircuitFacts Verif.PropsGipa Verif.PropsLevel.
Local Open Scope nat_scope.

(** ** A sequence of queries, each depending on the answers so far *)
Section Adaptive.
  Variable ask : list bytes -> bytes.
  Fixpoint answers_from (D : bytes -> bytes) (n : nat) (w : list bytes) : list bytes :=
    match n with O => w | S n => answers_from D n (w ++ [D (ask w)]) end.
  Definition answers (D : bytes -> bytes) (n : nat) : list bytes := answers_from D n [].

  Lemma answers_from_S D : forall n w, answers_from D (S n) w = answers_from D n w ++ [D (ask (answers_from D n w))].
  Proof. induction n as [|n IH]; intros w; [reflexivity|]. cbn [answers_from]. cbn [answers_from] in IH. now rewrite IH. Qed.
  Lemma answers_S D n : answers D (S n) = answers D n ++ [D (ask (answers D n))].
  Proof. apply answers_from_S. Qed.
  Lemma answers_length D n : length (answers D n) = n.
  Proof. induction n as [|n IH]; [reflexivity|]. rewrite answers_S, app_length, IH. cbn. lia. Qed.
  Lemma answers_firstn D n m : n <= m -> firstn n (answers D m) = answers D n.
  Proof.
    intros H. induction m as [|m IH]; [now replace n with 0 by lia|]. destruct (Nat.eq_dec n (S m)) as [->|Hn].
    - rewrite <- (answers_length D (S m)) at 1. apply firstn_all.
    - rewrite answers_S, firstn_app, answers_length. replace (n - m) with 0 by lia. cbn [firstn]. rewrite app_nil_r. apply IH. lia.
  Qed.
  Lemma answers_agree D D' : (forall q, D q = D' q) -> forall n w, answers_from D n w = answers_from D' n w.
  Proof. intros H. induction n as [|n IH]; intros w; [reflexivity|]. cbn [answers_from]. now rewrite H, IH. Qed.
  Lemma answers_from_app D : forall n w, exists v, answers_from D n w = w ++ v.
  Proof.
    induction n as [|n IH]; intros w; [exists []; symmetry; apply app_nil_r|]. cbn [answers_from].
    destruct (IH (w ++ [D (ask w)])) as [v Hv]. exists (D (ask w) :: v). rewrite Hv, <- app_assoc. reflexivity.
  Qed.

  (** at most a share n b / |Y| of the hash functions gives one of b bad answers to one of n queries *)
  Variables (bad : bytes -> bool) (Y : list bytes).
  Notation b := (length (filter bad Y)).
  Definition hit (n : nat) (w : list bytes) (D : bytes -> bytes) : bool := existsb bad (skipn (length w) (answers_from D n w)).
  Lemma hit_respects n w : respects (hit n w).
  Proof. intros D D' H. unfold hit. now rewrite (answers_agree D D' H). Qed.
  Lemma hit_S n w D : hit (S n) w D = bad (D (ask w)) || hit n (w ++ [D (ask w)]) D.
  Proof.
    assert (Hs : forall u v : list bytes, skipn (length u) (u ++ v) = v).
    { intros u v. rewrite skipn_app, skipn_all, Nat.sub_diag. reflexivity. }
    unfold hit. cbn [answers_from]. destruct (answers_from_app D n (w ++ [D (ask w)])) as [v ->]. rewrite Hs, <- app_assoc, Hs. reflexivity.
  Qed.
  Lemma cnt_same X D0 Q Q' : (forall D, In D (tables X Y D0) -> Q D = Q' D) -> cnt Y X D0 Q = cnt Y X D0 Q'.
  Proof. intros H. unfold cnt. f_equal. now apply filter_ext_in. Qed.

  Lemma few_hits : forall n w X D0, NoDup X -> (forall q, bad (D0 q) = false) ->
    cnt Y X D0 (hit n w) * length Y <= n * b * length Y ^ length X.
  Proof.
    induction n as [|n IH]; intros w X D0 HX H0.
    - replace (cnt Y X D0 (hit 0 w)) with 0; [apply Nat.le_0_l|]. unfold cnt, hit. cbn [answers_from]. rewrite skipn_all. cbn [existsb].
      symmetry. induction (tables X Y D0) as [|D l IHl]; [reflexivity|exact IHl].
    - destruct (in_dec bytes_dec (ask w) X) as [Hin|Hout].
      + apply in_split in Hin as (X1 & X2 & ->).
        rewrite (cnt_perm Y _ (hit_respects (S n) w) (X1 ++ ask w :: X2) (ask w :: (X1 ++ X2)) (Permutation_sym (Permutation_middle _ _ _)) HX).
        pose proof (NoDup_remove_1 _ _ _ HX) as HX'. pose proof (NoDup_remove_2 _ _ _ HX) as Hn.
        replace (length (X1 ++ ask w :: X2)) with (S (length (X1 ++ X2))) by (rewrite !app_length; cbn; lia).
        rewrite cnt_cons, lsum_mul. set (m := length Y ^ length (X1 ++ X2)).
        assert (Hy : forall y, In y Y -> cnt Y (X1 ++ X2) (upd D0 (ask w) y) (hit (S n) w) * length Y <=
                                         (if bad y then length Y * m else 0) + n * b * m).
        { intros y _. assert (E : forall D, In D (tables (X1 ++ X2) Y (upd D0 (ask w) y)) -> D (ask w) = y).
          { intros D HD. rewrite (tables_out Y _ _ _ _ HD Hn). unfold upd. destruct (bytes_dec (ask w) (ask w)); congruence. }
          destruct (bad y) eqn:Ey.
          - pose proof (cnt_le Y (X1 ++ X2) (upd D0 (ask w) y) (hit (S n) w)) as Hle. fold m in Hle.
            etransitivity; [|apply Nat.le_add_r]. rewrite Nat.mul_comm. now apply Nat.mul_le_mono_l.
          - rewrite (cnt_same _ _ _ (hit n (w ++ [y]))).
            + cbn [Nat.add]. apply IH; [exact HX'|]. intros q. unfold upd. destruct (bytes_dec q (ask w)); [exact Ey|apply H0].
            + intros D HD. rewrite hit_S, (E D HD), Ey. reflexivity. }
        etransitivity; [apply lsum_le; exact Hy|]. cbn [Nat.pow]. fold m.
        assert (Hsum : forall l, lsum (map (fun y => (if bad y then length Y * m else 0) + n * b * m) l) = length (filter bad l) * (length Y * m) + length l * (n * b * m)).
        { induction l as [|y l IHl]; [reflexivity|]. cbn [map lsum filter length]. rewrite IHl. destruct (bad y); cbn [length]; lia. }
        rewrite Hsum. apply Nat.eq_le_incl. ring.
      + rewrite (cnt_same _ _ _ (hit n (w ++ [D0 (ask w)]))).
        * etransitivity; [now apply IH|]. apply Nat.mul_le_mono_r. cbn [Nat.mul]. apply Nat.le_add_l.
        * intros D HD. rewrite hit_S, (tables_out Y _ _ _ _ HD Hout), H0. reflexivity.
  Qed.
End Adaptive.

(** ** The honest prover *)
Section Honest.
  Variables (P : pairing) (S : stream).
  Notation K := (pK P).
  (** digests from which the generator draws the challenge zero *)
  Definition draws_zero (d : bytes) : bool := feqb (draw128 P S d) f0.

  Lemma honest_elems_length : forall (xs : list K) a b, length (honest_elems (P := P) xs a b) = length xs.
  Proof. induction xs as [|x xs IH]; intros a b; [reflexivity|]. cbn [honest_elems length]. now rewrite IH. Qed.
  Lemma honest_elems_nth : forall (xs ys ys' : list K) y y' a b d,
    nth (length xs) (honest_elems (P := P) (xs ++ y :: ys) a b) d = nth (length xs) (honest_elems (xs ++ y' :: ys') a b) d.
  Proof. induction xs as [|x xs IH]; intros ys ys' y y' a b d; [reflexivity|]. cbn [app honest_elems length nth]. apply IH. Qed.

  (** what the prover hashes when the answers so far are w *)
  Definition sipp_ask a b r v (w : list bytes) : bytes :=
    match w with
    | [] => sipp_seed P a b r v
    | _ :: ds => ser_pair P (nth (length ds) (honest_elems (map (draw128 P S) ds ++ [f0]) (scaled_by P r a) b) (m0, m0)) ++ last w []
    end.

  Lemma sipp_answers D a b r v xs' : let zs := honest_elems xs' (scaled_by P r a) b in
    challenges_of P S D (sipp_seed P a b r v) zs = xs' ->
    forall j, j <= length xs' ->
    answers (sipp_ask a b r v) D (Datatypes.S j) =
      map (fun i => hash_chain D (sipp_seed P a b r v) (map (ser_pair P) (firstn i zs))) (seq 0 (Datatypes.S j)).
  Proof.
    intros zs Hx j. assert (Lz : length zs = length xs') by apply honest_elems_length.
    assert (Hnth : forall i, i < length xs' -> nth i xs' f0 = draw128 P S (hash_chain D (sipp_seed P a b r v) (map (ser_pair P) (firstn (Datatypes.S i) zs)))).
    { intros i Hi. rewrite <- Hx at 1. unfold challenges_of. rewrite Lz.
      set (f := fun j => challenge_after P S D (sipp_seed P a b r v) (firstn (Datatypes.S j) zs)).
      rewrite (nth_indep _ f0 (f 0)) by (now rewrite map_length, seq_length). rewrite map_nth, seq_nth by exact Hi. reflexivity. }
    induction j as [|j IH]; intros Hj; [reflexivity|].
    rewrite answers_S, IH by lia. rewrite (seq_S (Datatypes.S j)), map_app. f_equal. cbn [map plus]. f_equal.
    set (w := map _ (seq 0 (Datatypes.S j))).
    assert (Hlast : last w [] = hash_chain D (sipp_seed P a b r v) (map (ser_pair P) (firstn j zs))).
    { unfold w. rewrite seq_S, map_app. cbn [map plus]. apply last_last. }
    assert (Ht : exists d0, w = d0 :: map (fun i => hash_chain D (sipp_seed P a b r v) (map (ser_pair P) (firstn (Datatypes.S i) zs))) (seq 0 j)).
    { eexists. unfold w. cbn [seq map]. f_equal. rewrite <- seq_shift, map_map. reflexivity. }
    destruct Ht as [d0 Ew].
    assert (Epre : map (fun i => draw128 P S (hash_chain D (sipp_seed P a b r v) (map (ser_pair P) (firstn (Datatypes.S i) zs)))) (seq 0 j) = firstn j xs').
    { apply (nth_ext _ _ f0 f0); [rewrite map_length, seq_length, firstn_length; lia|]. intros i Hi. rewrite map_length, seq_length in Hi.
      set (f := fun i => draw128 P S (hash_chain D (sipp_seed P a b r v) (map (ser_pair P) (firstn (Datatypes.S i) zs)))).
      rewrite (nth_indep _ f0 (f 0)) by (now rewrite map_length, seq_length). rewrite map_nth, seq_nth by exact Hi. cbn [plus].
      unfold f. rewrite <- Hnth by lia. rewrite <- (firstn_skipn j xs') at 1. rewrite app_nth1 by (rewrite firstn_length; lia). reflexivity. }
    assert (Ez : nth j (honest_elems (firstn j xs' ++ [f0]) (scaled_by P r a) b) (m0, m0) = nth j zs (m0, m0)).
    { unfold zs. rewrite <- (firstn_skipn j xs') at 2. destruct (skipn j xs') as [|y ys] eqn:Es.
      - exfalso. apply (f_equal (@length K)) in Es. rewrite skipn_length in Es. cbn in Es. lia.
      - assert (Lf : length (firstn j xs') = j) by (rewrite firstn_length; lia). pose proof (honest_elems_nth (firstn j xs') [] ys f0 y (scaled_by P r a) b (m0, m0)) as Hn. rewrite Lf in Hn. exact Hn. }
    assert (Eask : sipp_ask a b r v w = ser_pair P (nth j zs (m0, m0)) ++ last w []).
    { clear Hlast. rewrite Ew. cbn [sipp_ask]. rewrite map_length, seq_length, map_map, Epre, Ez. reflexivity. }
    rewrite Eask, Hlast. unfold hash_chain.
    assert (Ef : firstn (Datatypes.S j) zs = firstn j zs ++ [nth j zs (m0, m0)]).
    { clear - Hj Lz. assert (Hj' : j < length zs) by lia. clear Hj Lz. revert Hj'. generalize zs. clear zs. induction j as [|j IH]; intros [|z zs] H; cbn in H; try lia; [reflexivity|].
      cbn [firstn app nth]. f_equal. apply IH. lia. }
    rewrite Ef, map_app, fold_left_app. reflexivity.
  Qed.

  (** For all but a share (k+1) b / |Y| of the hash functions the honest prover finishes and the verifier accepts, b being the number
      of digests in Y that lead to the challenge zero. *)
  Theorem C118_honest (E E' : penv) k a b r X Y D0 : 1 <= threads E -> 1 <= k -> u64_bound (length a) -> length a = 2 ^ k -> length b = 2 ^ k ->
    length a <= length r -> NoDup X -> (forall q, draws_zero (D0 q) = false) ->
    length (filter (fun D => negb (accepted (do zs <- sipp_prove P E S D a b r (sipp_value P a b r); sipp_verify P E' S D a b r (sipp_value P a b r) zs)))
              (tables X Y D0)) * length Y <=
    (k + 1) * length (filter draws_zero Y) * length Y ^ length X.
  Proof.
    intros HE Hk Hu Ha Hb Hr HX H0. set (v := sipp_value P a b r).
    etransitivity; [|apply (few_hits (sipp_ask a b r v) draws_zero Y (k + 1) [] X D0 HX H0)].
    apply Nat.mul_le_mono_r. unfold cnt. apply filter_imp_length. intros D _ Hneg. apply negb_true_iff in Hneg.
    destruct (C45_complete (S := S) (D := D) k a b r E' HE Hk Hu Ha Hb Hr) as [(zs & Ep & Ev)|(_ & xs & Lxs & _ & Hx)].
    - fold v in Ep, Ev. rewrite Ep in Hneg. cbn [rbind] in Hneg. rewrite Ev in Hneg. discriminate.
    - fold v in Hx. unfold hit. cbn [length skipn]. apply existsb_exists.
      pose proof (sipp_answers D a b r v (xs ++ [f0]) Hx (length xs + 1) ltac:(rewrite app_length; cbn; lia)) as Ew.
      set (zs := honest_elems (xs ++ [f0]) (scaled_by P r a) b) in *.
      exists (hash_chain D (sipp_seed P a b r v) (map (ser_pair P) (firstn (length xs + 1) zs))). split.
      + fold (answers (sipp_ask a b r v) D (k + 1)). rewrite <- (firstn_skipn (Datatypes.S (length xs + 1)) (answers _ _ _)).
        apply in_or_app. left. rewrite answers_firstn by lia. rewrite Ew. apply in_map_iff. exists (length xs + 1). split; [reflexivity|].
        apply in_seq. lia.
      + unfold draws_zero. apply feqb_spec. transitivity (nth (length xs) (xs ++ [f0]) f0); [|rewrite app_nth2, Nat.sub_diag by lia; reflexivity].
        rewrite <- Hx. unfold challenges_of. set (f := fun j => challenge_after P S D (sipp_seed P a b r v) (firstn (Datatypes.S j) zs)).
        assert (Lz : length zs = length xs + 1) by (unfold zs; rewrite honest_elems_length, app_length; reflexivity).
        rewrite (nth_indep _ f0 (f 0)) by (rewrite map_length, seq_length, Lz; lia). rewrite map_nth, seq_nth by lia. cbn [plus]. unfold f.
        replace (Datatypes.S (length xs)) with (length xs + 1) by lia. reflexivity.
  Qed.
End Honest.
Print Assumptions C118_honest.

(** ** The scalar fields of BLS12-381 and BLS12-377 and digests of 32 bytes.  Of the generator (ChaCha20 in the program) it is assumed that
    its outputs are 64-bit numbers and that no pair of first outputs comes from more than c 2^128 of the 2^256 seeds. *)
Record even_stream (S : stream) (c : nat) : Prop := {
  es_u64 : forall s, (fst (st_next_u64 S s) < 2 ^ 64)%N;
  es_even : forall lo hi l, NoDup l ->
    (forall d, In d l -> In d (byte_strings 32) /\ fst (st_next_u64 S (st_from_seed S d)) = lo /\
                         fst (st_next_u64 S (snd (st_next_u64 S (st_from_seed S d)))) = hi) -> length l <= c * 256 ^ 16 }.

Lemma lor_halves lo hi lo' hi' : (lo < 2 ^ 64)%N -> (lo' < 2 ^ 64)%N ->
  N.lor (N.shiftl hi 64) lo = N.lor (N.shiftl hi' 64) lo' -> lo = lo' /\ hi = hi'.
Proof.
  intros H H' E.
  assert (Hsum : forall l h, (l < 2 ^ 64)%N -> N.lor (N.shiftl h 64) l = (h * 2 ^ 64 + l)%N).
  { intros l h Hl. rewrite <- N.lxor_lor, <- N.add_nocarry_lxor, N.shiftl_mul_pow2; [reflexivity| |].
    - apply N.bits_inj. intros n. rewrite N.land_spec, N.bits_0. destruct (N.lt_ge_cases n 64) as [Hn|Hn].
      + rewrite N.shiftl_spec_low by exact Hn. reflexivity.
      + destruct (N.eq_dec l 0) as [->|Hl0]; [rewrite N.bits_0; apply andb_false_r|].
        rewrite (N.bits_above_log2 l n); [apply andb_false_r|]. apply N.log2_lt_pow2; [lia|]. eapply N.lt_le_trans; [exact Hl|]. apply N.pow_le_mono_r; lia.
    - apply N.bits_inj. intros n. rewrite N.land_spec, N.bits_0. destruct (N.lt_ge_cases n 64) as [Hn|Hn].
      + rewrite N.shiftl_spec_low by exact Hn. reflexivity.
      + destruct (N.eq_dec l 0) as [->|Hl0]; [rewrite N.bits_0; apply andb_false_r|].
        rewrite (N.bits_above_log2 l n); [apply andb_false_r|]. apply N.log2_lt_pow2; [lia|]. eapply N.lt_le_trans; [exact Hl|]. apply N.pow_le_mono_r; lia. }
  rewrite !Hsum in E by assumption. revert H H' E. generalize (2 ^ 64)%N. intros B H H' E.
  assert (HB : B <> 0%N) by lia.
  assert (lo = lo'). { rewrite <- (N.mod_small lo B H), <- (N.mod_small lo' B H'). rewrite <- (N.mod_add lo hi B HB), <- (N.mod_add lo' hi' B HB). f_equal. lia. }
  split; [assumption|]. subst lo'. apply (N.mul_cancel_r hi hi' B HB). lia.
Qed.
Lemma two_halves lo hi : (lo < 2 ^ 64)%N -> (hi < 2 ^ 64)%N -> (N.lor (N.shiftl hi 64) lo < 2 ^ 128)%N.
Proof.
  intros H H'. destruct (N.eq_dec (N.lor (N.shiftl hi 64) lo) 0) as [->|Hne]; [reflexivity|]. apply N.log2_lt_pow2; [lia|].
  rewrite N.log2_lor. apply N.max_lub_lt.
  - destruct (N.eq_dec hi 0) as [->|Hh]; [reflexivity|]. rewrite N.log2_shiftl by exact Hh. apply N.log2_lt_pow2 in H'; lia.
  - destruct (N.eq_dec lo 0) as [->|Hl]; [reflexivity|]. apply N.log2_lt_pow2 in H; lia.
Qed.
Lemma draws_spread P S c p k bits : ark_field (pK P) p k bits -> even_stream S c -> spread P S (byte_strings 32) (c * 256 ^ 16).
Proof.
  intros [_ [Hp _] Hints _ _] [Hu He] x l Hl Hx. destruct l as [|d0 l0] eqn:El; [apply Nat.le_0_l|]. rewrite <- El in *.
  set (lo d := fst (st_next_u64 S (st_from_seed S d))). set (hi d := fst (st_next_u64 S (snd (st_next_u64 S (st_from_seed S d))))).
  assert (Hd : forall d, draw128 P S d = f_ofN (N.lor (N.shiftl (hi d) 64) (lo d))).
  { intros d. unfold draw128, hi, lo. destruct (st_next_u64 S (st_from_seed S d)) as [u s]. cbn [fst snd]. now destruct (st_next_u64 S s). }
  apply (He (lo d0) (hi d0) l Hl). intros d Hin. destruct (Hx d Hin) as [Hom Ex]. split; [exact Hom|].
  assert (Hin0 : In d0 l) by (rewrite El; apply in_eq). destruct (Hx d0 Hin0) as [_ Ex0].
  apply lor_halves; [apply Hu|apply Hu|]. apply Hints.
  - eapply N.lt_le_trans; [apply two_halves; apply Hu|exact Hp].
  - eapply N.lt_le_trans; [apply two_halves; apply Hu|exact Hp].
  - transitivity x; [rewrite <- Ex; symmetry; apply Hd|rewrite <- Ex0; apply Hd].
Qed.

Definition curve_field (K : field) : Prop := K = Fr381 \/ K = Fr377.
Lemma curve_ark K : curve_field K -> (exists p k bits, ark_field K p k bits) /\ prefix_free (@fser K) /\ forall x : K, length (fser x) mod 16 = 0.
Proof.
  intros [->| ->].
  - split; [exists (Z.to_N r381), 32, 255; apply C107_bls12_381|]. split; [apply C107_bls12_381|]. intros x. replace (length (fser x)) with 32; [reflexivity|]. symmetry. apply le_bytes_length.
  - split; [exists (Z.to_N r377), 32, 253; apply C107_bls12_377|]. split; [apply C107_bls12_377|]. intros x. replace (length (fser x)) with 32; [reflexivity|]. symmetry. apply le_bytes_length.
Qed.

(** A wrong value: of all sequences of answers to Q queries at most a share (3 c 2^128 + 2 Q) Q / 2^256. *)
Theorem C118_wrong_value (P : pairing) (E : penv) (S : stream) c ask out Q L : curve_field (pK P) -> even_stream S c ->
  prefix_free (@mser _ (pG1 P)) -> prefix_free (@mser _ (pG2 P)) -> prefix_free (@mser _ (pGT P)) ->
  (forall g : pG1 P, length (mser g) mod 16 = 0) -> (forall g : pG2 P, length (mser g) mod 16 = 0) -> (forall g : pGT P, length (mser g) mod 16 = 0) ->
  NoDup L -> (forall w, In w L -> length w = Q /\ incl w (byte_strings 32) /\ fools P E S ask out w) ->
  (N.of_nat (length L) * 2 ^ 256 <= (3 * N.of_nat c * 2 ^ 128 + 2 * N.of_nat Q) * N.of_nat Q * (2 ^ 256) ^ N.of_nat Q)%N.
Proof.
  intros HK HS F1 F2 FT M1 M2 MT NL HL. destruct (curve_ark _ HK) as ((p & k & bits & Ha) & FF & MF).
  pose proof (C95_sipp_sound_separated P E S ask out (byte_strings 32) 32 (c * 256 ^ 16) (byte_strings_nodup 32)
    (fun d Hd => proj1 (byte_strings_bytes 32 d Hd)) (draws_spread P S c p k bits Ha HS) F1 F2 FF FT Q L NL HL) as Hc.
  assert (Hsep : forall a b r v z d, claim_ok P (a, b, r, v) -> In d (byte_strings 32) -> sipp_seed P a b r v <> ser_pair P z ++ d).
  { intros a b r v z d _. apply C95_separated; try assumption. intros e He. destruct (byte_strings_bytes 32 e He) as [-> _]. reflexivity. }
  specialize (Hc Hsep). rewrite byte_strings_length in Hc.
  destruct Q as [|Q].
  - rewrite Nat.mul_0_r in Hc. assert (length L = 0) as -> by lia. apply N.le_0_l.
  - replace (Datatypes.S Q - 1) with Q in Hc by lia.
    assert (E1 : N.of_nat (256 ^ 16) = (2 ^ 128)%N) by (rewrite Nat2N.inj_pow; reflexivity).
    assert (E2 : N.of_nat (256 ^ 32) = (2 ^ 256)%N) by (rewrite Nat2N.inj_pow; reflexivity).
    assert (Hn : (N.of_nat (length L) <= (3 * N.of_nat c * 2 ^ 128 + 2 * N.of_nat (Datatypes.S Q)) * N.of_nat (Datatypes.S Q) * (2 ^ 256) ^ N.of_nat Q)%N).
    { rewrite <- E1, <- E2, <- Nat2N.inj_pow. revert Hc. generalize ((256 ^ 32) ^ Q). generalize (256 ^ 16). intros A B Hc.
      match type of Hc with _ <= ?r => transitivity (N.of_nat r); [revert Hc; generalize r; intros; lia|] end. rewrite !Nat2N.inj_mul, Nat2N.inj_add, !Nat2N.inj_mul.
      apply N.eq_le_incl. change (N.of_nat 3) with 3%N. change (N.of_nat 2) with 2%N. ring. }
    rewrite (Nat2N.inj_succ Q), N.pow_succ_r', <- Nat2N.inj_succ. revert Hn. generalize (2 ^ 256)%N. intros B Hn.
    rewrite (N.mul_comm B), N.mul_assoc. apply N.mul_le_mono_r. exact Hn.
Qed.
Print Assumptions C118_wrong_value.

(** With at most 2^64 queries and an even generator (c = 1) the share is below 2^-62. *)
Theorem C118_level (P : pairing) (E : penv) (S : stream) ask out Q L : curve_field (pK P) -> even_stream S 1 ->
  prefix_free (@mser _ (pG1 P)) -> prefix_free (@mser _ (pG2 P)) -> prefix_free (@mser _ (pGT P)) ->
  (forall g : pG1 P, length (mser g) mod 16 = 0) -> (forall g : pG2 P, length (mser g) mod 16 = 0) -> (forall g : pGT P, length (mser g) mod 16 = 0) ->
  (N.of_nat Q <= 2 ^ 64)%N ->
  NoDup L -> (forall w, In w L -> length w = Q /\ incl w (byte_strings 32) /\ fools P E S ask out w) ->
  (N.of_nat (length L) * 2 ^ 62 <= (2 ^ 256) ^ N.of_nat Q)%N.
Proof.
  intros HK HS F1 F2 FT M1 M2 MT HQ NL HL. pose proof (C118_wrong_value P E S 1 ask out Q L HK HS F1 F2 FT M1 M2 MT NL HL) as H.
  change (N.of_nat 1) with 1%N in H. revert H. generalize ((2 ^ 256) ^ N.of_nat Q)%N. generalize (N.of_nat (length L)). intros l W H.
  assert (Hf : ((3 * 1 * 2 ^ 128 + 2 * N.of_nat Q) * N.of_nat Q <= 2 ^ 194)%N).
  { transitivity ((3 * 1 * 2 ^ 128 + 2 * 2 ^ 64) * 2 ^ 64)%N; [|vm_compute; discriminate]. apply N.mul_le_mono; [|exact HQ]. apply N.add_le_mono_l, N.mul_le_mono_l. exact HQ. }
  apply (N.mul_le_mono_pos_r _ _ (2 ^ 194)); [reflexivity|]. rewrite <- N.mul_assoc, <- N.pow_add_r. change (62 + 194)%N with 256%N.
  etransitivity; [exact H|]. rewrite N.mul_comm. apply N.mul_le_mono_l. exact Hf.
Qed.
Print Assumptions C118_level.

(** ... and the honest prover fails for at most a share c (k+1) / 2^128 of the hash functions. *)
Theorem C118_honest_level (P : pairing) (S : stream) (E E' : penv) c k a b r X D0 : curve_field (pK P) -> even_stream S c ->
  1 <= threads E -> 1 <= k -> u64_bound (length a) -> length a = 2 ^ k -> length b = 2 ^ k ->
  length a <= length r -> NoDup X -> (forall q, draws_zero P S (D0 q) = false) ->
  (N.of_nat (length (filter (fun D => negb (accepted (do zs <- sipp_prove P E S D a b r (sipp_value P a b r); sipp_verify P E' S D a b r (sipp_value P a b r) zs)))
              (tables X (byte_strings 32) D0))) * 2 ^ 128 <= N.of_nat (c * (k + 1)) * (2 ^ 256) ^ N.of_nat (length X))%N.
Proof.
  intros HK HS HE Hk Hu Ha Hb Hr HX H0. destruct (curve_ark _ HK) as ((p & k0 & bits & Hark) & _ & _).
  pose proof (C118_honest P S E E' k a b r X (byte_strings 32) D0 HE Hk Hu Ha Hb Hr HX H0) as H.
  set (n := length (filter _ (tables X (byte_strings 32) D0))) in *. clearbody n.
  assert (Hz : length (filter (draws_zero P S) (byte_strings 32)) <= c * 256 ^ 16).
  { apply (draws_spread P S c p k0 bits Hark HS f0); [apply NoDup_filter, byte_strings_nodup|]. intros d Hd. apply filter_In in Hd as [Hd Ed].
    split; [exact Hd|]. now apply feqb_spec. }
  set (z := length (filter (draws_zero P S) (byte_strings 32))) in *. clearbody z. rewrite byte_strings_length in H.
  assert (E1 : N.of_nat (256 ^ 16) = (2 ^ 128)%N) by (rewrite Nat2N.inj_pow; reflexivity).
  assert (E2 : N.of_nat (256 ^ 32) = (2 ^ 256)%N) by (rewrite Nat2N.inj_pow; reflexivity).
  assert (Hm : 256 ^ 32 = 256 ^ 16 * 256 ^ 16) by (rewrite <- Nat.pow_add_r; reflexivity).
  assert (Hp : 0 < 256 ^ 16) by (apply Nat.neq_0_lt_0, Nat.pow_nonzero; discriminate).
  rewrite <- E1, <- E2, <- Nat2N.inj_pow, <- !Nat2N.inj_mul.
  assert (Hf : n * 256 ^ 16 <= c * (k + 1) * (256 ^ 32) ^ length X).
  { rewrite Hm in H at 1. revert H Hz Hp. generalize ((256 ^ 32) ^ length X). generalize (256 ^ 16). intros A T H Hz Hp.
    apply (Nat.mul_le_mono_pos_r _ _ A Hp). rewrite <- Nat.mul_assoc. etransitivity; [exact H|].
    transitivity ((k + 1) * (c * A) * T); [apply Nat.mul_le_mono_r, Nat.mul_le_mono_l, Hz|]. apply Nat.eq_le_incl. ring. }
  revert Hf. generalize (c * (k + 1) * (256 ^ 32) ^ length X). generalize (n * 256 ^ 16). intros u v Hf. lia.
Qed.
Print Assumptions C118_honest_level.

(** ** Examples: a generator that reads its seed, eight bytes at a time *)
Definition byte_stream : stream := {|
  st_state := bytes;
  st_from_seed := fun d => d;
  st_next_u32 := fun s => (from_le_bytes (firstn 4 s), skipn 4 s);
  st_next_u64 := fun s => ((from_le_bytes (firstn 8 s) mod 2 ^ 64)%N, skipn 8 s);
  st_fill_bytes := fun n s => (firstn n s, skipn n s) |}.
Example C118_example_stream : even_stream byte_stream 1.
Proof.
  split; [intros s; apply N.mod_lt; discriminate|]. intros lo hi l Hl H. destruct l as [|d0 l0] eqn:El; [apply Nat.le_0_l|]. rewrite <- El in *.
  assert (Hin0 : In d0 l) by (rewrite El; apply in_eq).
  assert (Hsmall : forall d, is_bytes d -> (from_le_bytes (firstn 8 d) mod 2 ^ 64)%N = from_le_bytes (firstn 8 d)).
  { intros d Hd. apply N.mod_small. assert (Hf : is_bytes (firstn 8 d)) by (apply Forall_forall; intros x Hx; eapply Forall_forall in Hd; [exact Hd|]; rewrite <- (firstn_skipn 8 d); apply in_or_app; now left).
    eapply N.lt_le_trans; [apply (from_le_lt _ Hf)|]. rewrite firstn_length. change (2 ^ 64)%N with (256 ^ 8)%N. apply N.pow_le_mono_r; lia. }
  assert (Hsk : forall d, is_bytes d -> is_bytes (skipn 8 d)).
  { intros d Hd. apply Forall_forall. intros x Hx. eapply Forall_forall in Hd; [exact Hd|]. rewrite <- (firstn_skipn 8 d). apply in_or_app. now right. }
  assert (Hfi : forall d, is_bytes d -> is_bytes (firstn 8 d)).
  { intros d Hd. apply Forall_forall. intros x Hx. eapply Forall_forall in Hd; [exact Hd|]. rewrite <- (firstn_skipn 8 d). apply in_or_app. now left. }
  assert (H16 : forall d : bytes, firstn 16 d = firstn 8 d ++ firstn 8 (skipn 8 d)).
  { intros d. rewrite <- (firstn_skipn 8 (firstn 16 d)), firstn_firstn, skipn_firstn_comm. reflexivity. }
  assert (Hc : forall d, In d l -> In d (byte_strings (16 + 16)) /\ In (low 16 128 d) [low 16 128 d0]); [|pose proof (count_low 16 128 16 [low 16 128 d0] l (le_n _) Hl Hc) as Hx; revert Hx; generalize (256 ^ 16); intros A Hx; cbn [length] in Hx; change (2 ^ (8 * 16 - 128)) with 1 in Hx; rewrite Nat.mul_1_l in Hx; exact Hx].
  intros d Hd. split; [exact (proj1 (H d Hd))|]. left. unfold low. do 2 f_equal. destruct (H d Hd) as (B & E1 & E2). destruct (H d0 Hin0) as (B0 & E10 & E20).
  destruct (byte_strings_bytes _ _ B) as [Ll Bb]. destruct (byte_strings_bytes _ _ B0) as [Ll0 Bb0].
  cbn [byte_stream st_next_u64 st_from_seed fst snd] in E1, E2, E10, E20. rewrite Hsmall in E1, E2, E10, E20 by auto.
  rewrite !H16. f_equal; symmetry; apply from_le_inj; rewrite ?firstn_length, ?skipn_length; try congruence; auto; lia.
Qed.

(** The vectors (2, 3) and (7, 8) with coefficients 1 over BLS12-381 and the claim 39 instead of 38.  The prover sends 20 instead of 21
    and is lucky if the digest of its elements starts with the number 1. *)
Definition ex118_claim : list (pG1 P381) * list (pG2 P381) * list (pK P381) * pGT P381 := (fl [2; 3]%Z, fl [7; 8]%Z, fl [1; 1]%Z, fq 39).
Definition ex118_zs : list (pGT P381 * pGT P381) := [(fq 20, fq 16)].
Definition ex118_ask (w : list bytes) : bytes :=
  match w with
  | [] => let '(a, b, r, v) := ex118_claim in sipp_seed P381 a b r v
  | _ => ser_pair P381 (fq 20, fq 16) ++ last w []
  end.
Definition ex118_w : list bytes := [repeat 0%N 32; 1%N :: repeat 0%N 31].
Example C118_example_hypotheses : curve_field (pK P381) /\ prefix_free (@mser _ (pG1 P381)) /\ prefix_free (@mser _ (pG2 P381)) /\ prefix_free (@mser _ (pGT P381)) /\
  (forall g : pG1 P381, length (mser g) mod 16 = 0) /\ (forall g : pG2 P381, length (mser g) mod 16 = 0) /\ (forall g : pGT P381, length (mser g) mod 16 = 0) /\
  length ex118_w = 2 /\ incl ex118_w (byte_strings 32).
Proof.
  assert (F : prefix_free (@fser Fr381)) by apply C107_bls12_381.
  assert (M : forall x : Fr381, length (fser x) mod 16 = 0) by (apply (curve_ark Fr381); now left).
  split; [now left|]. do 3 (split; [exact F|]). do 3 (split; [exact M|]). split; [reflexivity|].
  intros d Hd. apply byte_strings_spec. destruct Hd as [<-|[<-|[]]]; (split; [reflexivity|]); cbn [repeat]; intros x Hx; repeat (destruct Hx as [<-|Hx]; [reflexivity|]); destruct Hx.
Qed.
Example C118_example_fools : fools P381 ex_env1 byte_stream ex118_ask (fun _ => (ex118_claim, ex118_zs)) ex118_w.
Proof.
  exists (fun q => if bytes_dec q (ex118_ask []) then repeat 0%N 32 else 1%N :: repeat 0%N 31). split.
  - intros [|[|t]] Ht; cbn [ex118_w length] in Ht; [reflexivity|reflexivity|lia].
  - cbn [ex118_claim]. split; [reflexivity|]. split; [reflexivity|]. split; [reflexivity|]. split; [reflexivity|].
    split; [intros H; apply (f_equal (fun x : Fr381 => proj1_sig x)) in H; vm_compute in H; discriminate|].
    intros q [->|(j & z & Hj & ->)]; [exists 0; split; [cbn; lia|reflexivity]|].
    destruct j as [|j]; [|destruct j; discriminate]. exists 1. split; [cbn; lia|]. injection Hj as <-. reflexivity.
Qed.
(** the honest prover for the same vectors finishes with the digests 2, 0, ..., 0 *)
Example C118_example_honest : 1 <= threads ex_env1 /\ u64_bound (length (fl [2; 3]%Z)) /\ draws_zero P381 byte_stream (2%N :: repeat 0%N 31) = false /\
  draws_zero P381 byte_stream (repeat 0%N 32) = true.
Proof. split; [apply le_n|]. split; [reflexivity|]. split; reflexivity. Qed.

(** Facts about SIPP (C45 - C49). *)
Require Import List Arith NArith ZArith Lia Bool Field.
Import ListNotations.
Require Import Verif.Outcome Verif.Algebra Verif.Rust Verif.InnerProducts Verif.Rng Verif.Floats Verif.Sipp
  Verif.Spec Verif.ListFacts Verif.RustFacts Verif.InnerProductFacts Verif.GipaFacts Verif.KeyFacts
  Verif.RootFacts Verif.FloatFacts.
Require Import Coq.Floats.SpecFloat.

(** ** The comparison in f32 *)
Lemma shr_exp mrs e n mrs' e' : shr mrs e n = (mrs', e') -> (e <= e')%Z /\ (e + n <= e')%Z.
Proof. unfold shr. destruct n; intros [= <- <-]; lia. Qed.

Lemma normalize_large n : (2 ^ 24 <= n)%Z ->
  match binary_normalize 24 128 n 0 false with
  | S754_finite _ _ e => (1 <= e)%Z
  | _ => True
  end.
Proof.
  intros Hn. destruct n as [|p|p]; try lia. cbn [binary_normalize]. unfold binary_round.
  destruct (Zdigits2_bounds (Zpos p) ltac:(lia)) as [Hd [Hb1 Hb2]]. cbn [Zdigits2] in *.
  set (d := Zpos (digits2_pos p)) in *.
  assert (Hd25 : (25 <= d)%Z).
  { enough (24 < d)%Z by lia. apply (Z.pow_lt_mono_r_iff 2); lia. }
  assert (Hf : fexp 24 128 (d + 0) = (d - 24)%Z) by (unfold fexp, emin; lia). rewrite Hf.
  assert (Hal : shl_align p 0 (d - 24) = (p, 0%Z)).
  { unfold shl_align. destruct (d - 24 - 0)%Z eqn:Eq; try lia; reflexivity. }
  rewrite Hal. unfold binary_round_aux.
  destruct (shr_fexp 24 128 (Z.pos p) 0 loc_Exact) as [mrs e] eqn:E1.
  unfold shr_fexp in E1. apply shr_exp in E1. cbn [Zdigits2] in E1. fold d in E1. rewrite Hf in E1.
  destruct (shr_fexp 24 128 (round_nearest_even (shr_m mrs) (loc_of_shr_record mrs)) e loc_Exact) as [mrs' e'] eqn:E2.
  apply shr_exp in E2. destruct (shr_m mrs'); auto. destruct (e' <=? 128 - 24)%Z; auto. lia.
Qed.

(** the comparison of the number of rounds is exact *)
Lemma f32_rounds_eq n k : 1 <= k -> (Z.of_nat k < 2 ^ 24)%Z ->
  f32_eqb (f32_of_Z (Z.of_nat n)) (f32_log2_pow2 (Z.of_nat k)) = true <-> n = k.
Proof.
  intros Hk Hk'. unfold f32_eqb, f32_log2_pow2, f32_of_Z, SFeqb.
  rewrite (normalize_exact 24 128 ltac:(lia) ltac:(lia) (Z.of_nat k)) by lia.
  destruct (Zdigits2_bounds (Z.of_nat k) ltac:(lia)) as [Hd [Hb1 Hb2]].
  assert (Hd24 : (Zdigits2 (Z.of_nat k) <= 24)%Z).
  { enough (Zdigits2 (Z.of_nat k) - 1 < 24)%Z by lia. apply (Z.pow_lt_mono_r_iff 2); lia. }
  destruct (Z.lt_ge_cases (Z.of_nat n) (2 ^ 24)) as [Hn|Hn].
  - destruct (Nat.eq_dec n 0) as [->|Hn0]; [cbn; split; [discriminate|lia]|].
    rewrite (normalize_exact 24 128 ltac:(lia) ltac:(lia) (Z.of_nat n)) by lia.
    destruct (Zdigits2_bounds (Z.of_nat n) ltac:(lia)) as [Hd' [Hb1' Hb2']].
    assert (Hdn : (Zdigits2 (Z.of_nat n) <= 24)%Z).
    { enough (Zdigits2 (Z.of_nat n) - 1 < 24)%Z by lia. apply (Z.pow_lt_mono_r_iff 2); lia. }
    cbn [SFcompare]. split.
    + destruct (Z.compare_spec (Zdigits2 (Z.of_nat n) - 24) (Zdigits2 (Z.of_nat k) - 24)) as [E| |]; try discriminate.
      replace (Zdigits2 (Z.of_nat n)) with (Zdigits2 (Z.of_nat k)) by lia.
      assert (Hp : (0 < 2 ^ (24 - Zdigits2 (Z.of_nat k)))%Z) by (apply Z.pow_pos_nonneg; lia).
      set (u := (2 ^ (24 - Zdigits2 (Z.of_nat k)))%Z) in *.
      destruct (Pos.compare_cont Eq (Z.to_pos (Z.of_nat n * u)) (Z.to_pos (Z.of_nat k * u))) eqn:Ec; try discriminate.
      intros _. apply Pos.compare_eq in Ec.
      apply (f_equal Zpos) in Ec. rewrite !Z2Pos.id in Ec by nia. nia.
    + intros ->. rewrite Z.compare_refl.
      change (Pos.compare_cont Eq ?x ?x) with (Pos.compare x x). now rewrite Pos.compare_refl.
  - split; [|intros ->; lia]. pose proof (normalize_large _ Hn) as HL.
    destruct (binary_normalize 24 128 (Z.of_nat n) 0 false) as [s|s| |s m e]; cbn [SFcompare]; try discriminate.
    + destruct s; discriminate.
    + destruct s; [discriminate|]. destruct (Z.compare_spec e (Zdigits2 (Z.of_nat k) - 24)); try discriminate. lia.
Qed.

Lemma at_map_range {K : field} {M : module K} (F : nat -> M) n i : i < n -> at_ (map F (seq 0 n)) i = F i.
Proof.
  intros H. unfold at_. rewrite (nth_indep _ m0 (F 0)) by (rewrite map_length, seq_length; auto).
  rewrite (map_nth F), seq_nth by auto. reflexivity.
Qed.

(** ** The scalars s_i *)
Section SippFacts.
  Context {P : pairing}.
  Notation K := (pK P).
  Add Field KfSipp : (f_theory (pK P)).
  Implicit Types (a : list (pG1 P)) (b : list (pG2 P)) (xs t s r : list (pK P)) (zs : list (pGT P * pGT P)).

  Lemma scale_pass_length bit (x : K) s : length (sipp_scale_pass P bit x s) = length s.
  Proof. unfold sipp_scale_pass. rewrite zipw_length, seq_length. lia. Qed.

  Lemma scale_pass_nth bit (x : K) s i : i < length s ->
    fat (sipp_scale_pass P bit x s) i = fat s i *f (if Nat.testbit i bit then x else f1).
  Proof.
    intros H. unfold fat, sipp_scale_pass. rewrite (zipw_nth _ _ _ i 0 f0) by (rewrite ?seq_length; auto).
    rewrite seq_nth by auto. cbn [Nat.add]. destruct (Nat.testbit i bit); ring.
  Qed.

  Lemma subset_prod_snoc t (c : K) i :
    subset_prod (t ++ [c]) i = subset_prod t i *f (if Nat.testbit i (length t) then c else f1).
  Proof.
    unfold subset_prod. rewrite app_length. cbn [length]. rewrite Nat.add_1_r. cbn [fprod]. f_equal.
    - apply fprod_ext. intros j Hj. now rewrite fat_app1 by auto.
    - unfold fat. now rewrite app_nth2, Nat.sub_diag by lia.
  Qed.

  Lemma s_loop_spec n xs : forall j s, j + length xs = n ->
    length (sipp_s_loop P j n xs s) = length s /\
    forall i, i < length s -> fat (sipp_s_loop P j n xs s) i = fat s i *f subset_prod (rev xs) i.
  Proof.
    induction xs as [|x xs IH]; intros j s H; cbn [sipp_s_loop rev length] in *.
    - split; auto. intros i Hi. unfold subset_prod. cbn. ring.
    - destruct (IH (S j) (sipp_scale_pass P (n - j - 1) x s) ltac:(lia)) as [H1 H2]. rewrite scale_pass_length in *.
      split; [exact H1|]. intros i Hi. rewrite H2, scale_pass_nth by auto.
      rewrite subset_prod_snoc, rev_length. replace (n - j - 1) with (length xs) by lia. ring.
  Qed.

  Lemma s_loop_subs xs : sipp_s_loop P 0 (length xs) xs (repeat f1 (2 ^ length xs)) = subs (rev xs).
  Proof.
    destruct (s_loop_spec (length xs) xs 0 (repeat f1 (2 ^ length xs)) eq_refl) as [H1 H2].
    rewrite repeat_length in *. apply (nth_ext_eq _ _ f0).
    - now rewrite H1, subs_length, rev_length.
    - intros i Hi. rewrite H1 in Hi. specialize (H2 i Hi). unfold fat in H2. rewrite H2.
      replace (nth i (repeat f1 (2 ^ length xs)) f0) with (f1 : K) by (symmetry; rewrite (nth_indep _ f0 f1) by (now rewrite repeat_length); apply nth_repeat). transitivity (subset_prod (rev xs) i); [ring|].
      symmetry. apply subs_nth. now rewrite rev_length.
  Qed.

  (** ** batch_inverse *)
  Lemma batch_inverse_nz (x : K) : x <> f0 -> batch_inverse P x = finv x.
  Proof. intros H. unfold batch_inverse. now rewrite finverse_neq. Qed.
  Lemma batch_inverse_0 : batch_inverse P f0 = f0.
  Proof. unfold batch_inverse, finverse. rewrite (proj2 (feqb_spec K f0 f0)); reflexivity. Qed.

  (** ** The equation checked by verify *)
  Definition zsum zs xs : pGT P :=
    msum (zipw (fun z (p : K * K) => fst p *m fst z +m snd p *m snd z) zs (combine xs (map (batch_inverse P) xs))).

  Lemma zsum_cons z zs x xs : zsum (z :: zs) (x :: xs) = x *m fst z +m batch_inverse P x *m snd z +m zsum zs xs.
  Proof. unfold zsum. cbn [map combine zipw]. rewrite msum_cons. reflexivity. Qed.

  Definition fold_eq a b (v : pGT P) zs xs : Prop :=
    pr_e P (dot smul a (subs (rev xs) : list (fmod K))) (dot smul b (subs (rev (map (batch_inverse P) xs)) : list (fmod K)))
    = v +m zsum zs xs.

  Lemma fold_eq_nil x y v : fold_eq [x] [y] v [] [] <-> v = dot (pr_e P) [x] [y].
  Proof.
    unfold fold_eq, zsum. cbn [rev map combine zipw]. unfold subs. cbn [subs_from fold_left].
    rewrite (dot_single (pr_e P)), (dot_single smul x), (dot_single smul y). unfold smul. rewrite !mscale_1. unfold msum. cbn [fold_right]. rewrite madd_0_r. split; congruence.
  Qed.

  Lemma fold_eq_cons a1 a2 b1 b2 v z zs x xs : length a1 = 2 ^ length xs -> length a2 = 2 ^ length xs ->
    length b1 = 2 ^ length xs -> length b2 = 2 ^ length xs ->
    fold_eq (a1 ++ a2) (b1 ++ b2) v (z :: zs) (x :: xs) <->
    fold_eq (vfold x a1 a2) (vfold (batch_inverse P x) b1 b2) (v +m (x *m fst z +m batch_inverse P x *m snd z)) zs xs.
  Proof.
    intros H1 H2 H3 H4. unfold fold_eq. cbn [map rev]. rewrite zsum_cons.
    rewrite !dot_subs_fold by (rewrite rev_length, ?map_length; auto).
    now rewrite madd_assoc.
  Qed.

  (** ** verify *)
  Section Verify.
    Variables (E : penv) (S : stream) (D : bytes -> bytes).

    Lemma challenges_length rng zs : length (sipp_challenges P S D rng zs) = length zs.
    Proof.
      revert rng. induction zs as [|[zl zr] zs IH]; intros rng; cbn [sipp_challenges]; auto.
      destruct (sipp_challenge P S D rng zl zr). cbn [length]. now rewrite IH.
    Qed.

    Definition scaled a r := zipw (fun (g : pG1 P) (x : K) => x *m g) a r.
    Definition seeded a b r v := fs_from_seed S D (sipp_seed P a b r v).

    Lemma dot_scaled a s r : length a = length s -> length a <= length r ->
      dot smul a (zipw fmul s r : list (fmod K)) = dot smul (scaled a r) (s : list (fmod K)).
    Proof.
      revert s r. induction a; intros [|y s] [|z r] H H'; cbn [length] in *; try lia; try reflexivity.
      unfold scaled. cbn [zipw]. etransitivity; [apply (dot_cons smul)|]. etransitivity; [|symmetry; apply (dot_cons smul)].
      fold (scaled a0 r). rewrite IHa by lia. f_equal. unfold smul. now rewrite mscale_mul.
    Qed.

    Lemma sipp_verify_eq k a b r v zs : 1 <= k -> (Z.of_nat k < 2 ^ 24)%Z ->
      length a = 2 ^ k -> length b = 2 ^ k -> length zs = k -> 2 ^ k <= length r ->
      let xs := sipp_challenges P S D (seeded a b r v) zs in
      sipp_verify P E S D a b r v zs =
      Ok (meqb (pr_e P (dot smul (scaled a r) (subs (rev xs) : list (fmod K)))
                       (dot smul b (subs (rev (map (batch_inverse P) xs)) : list (fmod K)))) (v +m zsum zs xs)).
    Proof.
      intros Hk Hk' Ha Hb Hz Hr xs.
      assert (Hx : length xs = k) by (unfold xs; rewrite challenges_length; auto).
      unfold sipp_verify. rewrite Ha, Hb, Hz.
      rewrite (proj2 (Nat.eqb_eq _ _) (proj2 (count_ones_pow2 (2 ^ k)) (ex_intro _ k eq_refl))). cbn [rassert rbind].
      assert (2 <= 2 ^ k) by (change 2 with (2 ^ 1) at 1; apply Nat.pow_le_mono_r; lia).
      destruct (Nat.leb_spec 2 (2 ^ k)); [|lia]. cbn [rassert rbind]. rewrite Nat.eqb_refl. cbn [rassert rbind].
      rewrite Nat.log2_pow2 by lia. rewrite (proj2 (f32_rounds_eq k k Hk Hk') eq_refl). cbn [rassert rbind].
      fold (seeded a b r v). fold xs.
      rewrite par_reduce_msum. fold (zsum zs xs).
      rewrite <- Hx at 1 2. rewrite s_loop_subs.
      replace (sipp_s_loop P 0 k (map (batch_inverse P) xs) (repeat f1 (2 ^ k)))
        with (subs (rev (map (batch_inverse P) xs))).
      2:{ rewrite <- s_loop_subs, map_length, Hx. reflexivity. }
      assert (Hs : length (subs (rev xs)) = 2 ^ k) by (rewrite subs_length, rev_length; congruence).
      rewrite !msm_dot.
      - cbn [runwrap rbind]. rewrite dot_scaled by (rewrite ?Hs; lia). reflexivity.
      - rewrite subs_length, rev_length, map_length. congruence.
      - rewrite zipw_length, Hs. lia.
    Qed.

    Lemma sipp_verify_inv a b r v zs ok : (Z.of_nat (Nat.log2 (length a)) < 2 ^ 24)%Z ->
      sipp_verify P E S D a b r v zs = Ok ok ->
      exists k, 1 <= k /\ length a = 2 ^ k /\ length b = 2 ^ k /\ length zs = k /\ 2 ^ k <= length r.
    Proof.
      intros Hlog H. unfold sipp_verify in H.
      apply rbind_ok in H as [u1 [H1 H]]. apply rassert_ok, Nat.eqb_eq, count_ones_pow2 in H1 as [k Hk].
      apply rbind_ok in H as [u2 [H2 H]]. apply rassert_ok, Nat.leb_le in H2.
      apply rbind_ok in H as [u3 [H3 H]]. apply rassert_ok, Nat.eqb_eq in H3.
      apply rbind_ok in H as [u4 [H4 H]]. apply rassert_ok in H4. rewrite Hk, Nat.log2_pow2 in H4, Hlog by lia.
      assert (Hk1 : 1 <= k) by (destruct k; [rewrite Hk in H2; cbn in H2; lia|lia]).
      apply f32_rounds_eq in H4; auto.
      exists k. repeat split; auto; try congruence.
      apply rbind_ok in H as [ap [H5 _]]. apply runwrap_ok in H5. unfold msm in H5.
      destruct (Nat.eqb_spec (length a) (length (zipw fmul (sipp_s_loop P 0 (length zs) (sipp_challenges P S D (seeded a b r v) zs) (repeat f1 (length a))) r)))
        as [Hl|Hl]; [|unfold seeded in Hl; apply Nat.eqb_neq in Hl; rewrite Hl in H5; discriminate].
      rewrite zipw_length in Hl. lia.
    Qed.

    (** ** The statement of a round, by index *)
    (** l_i + x l_{i+h} for i < h, h half the length *)
    Definition half_fold {M : module K} (x : K) (l : list M) : list M :=
      map (fun i => at_ l i +m x *m at_ l (i + length l / 2)) (seq 0 (length l / 2)).
    (** sum_{i<h} e(a_{i+h}, b_i) and sum_{i<h} e(a_i, b_{i+h}) *)
    Definition cross_l a b : pGT P :=
      big (length a / 2) (fun i => pr_e P (at_ a (i + length a / 2)) (at_ b i)).
    Definition cross_r a b : pGT P :=
      big (length a / 2) (fun i => pr_e P (at_ a i) (at_ b (i + length a / 2))).
    (** inverse, zero for zero *)
    Definition inv0 (x : K) : K := if feqb x f0 then f0 else finv x.

    (** what an honest prover sends when the challenges are xs *)
    Fixpoint honest_elems (xs : list K) a b : list (pGT P * pGT P) :=
      match xs with
      | [] => []
      | x :: xs => (cross_l a b, cross_r a b) :: honest_elems xs (half_fold x a) (half_fold (finv x) b)
      end.

    Lemma half_double n : (n + n) / 2 = n.
    Proof. replace (n + n) with (n * 2) by lia. apply Nat.div_mul. lia. Qed.

    Lemma half_fold_app {M : module K} (x : K) (l1 l2 : list M) : length l1 = length l2 ->
      half_fold x (l1 ++ l2) = vfold x l1 l2.
    Proof.
      intros H. unfold half_fold. rewrite app_length, <- H, half_double. unfold vfold.
      apply (nth_ext_eq _ _ m0).
      - rewrite map_length, seq_length, zipw_length. lia.
      - intros i Hi. rewrite map_length, seq_length in Hi.
        change (nth i (map (fun i0 => at_ (l1 ++ l2) i0 +m x *m at_ (l1 ++ l2) (i0 + length l1)) (seq 0 (length l1))) m0)
          with (at_ (map (fun i0 => at_ (l1 ++ l2) i0 +m x *m at_ (l1 ++ l2) (i0 + length l1)) (seq 0 (length l1))) i).
        rewrite at_map_range by auto. symmetry. etransitivity; [apply (zipw_nth _ _ _ i m0 m0); lia|].
        unfold at_. rewrite app_nth1 by auto. rewrite app_nth2 by lia. replace (i + length l1 - length l1) with i by lia.
        apply madd_comm.
    Qed.

    Lemma cross_l_app a1 a2 b1 b2 : length a1 = length a2 -> length b1 = length a1 -> length b2 = length a1 ->
      cross_l (a1 ++ a2) (b1 ++ b2) = dot (pr_e P) a2 b1.
    Proof.
      intros H1 H2 H3. unfold cross_l. rewrite app_length, <- H1, half_double.
      rewrite dot_big by congruence. rewrite <- H1. apply big_ext. intros i Hi. unfold at_.
      rewrite app_nth2 by lia. rewrite app_nth1 by lia. now replace (i + length a1 - length a1) with i by lia.
    Qed.

    Lemma cross_r_app a1 a2 b1 b2 : length a1 = length a2 -> length b1 = length a1 -> length b2 = length a1 ->
      cross_r (a1 ++ a2) (b1 ++ b2) = dot (pr_e P) a1 b2.
    Proof.
      intros H1 H2 H3. unfold cross_r. rewrite app_length, <- H1, half_double.
      rewrite dot_big by congruence. apply big_ext. intros i Hi. unfold at_.
      rewrite (app_nth2 b1) by lia. rewrite app_nth1 by lia. now replace (i + length a1 - length b1) with i by lia.
    Qed.

    Lemma inv0_batch (x : K) : batch_inverse P x = inv0 x.
    Proof.
      unfold inv0. destruct (feqb x f0) eqn:Hx.
      - apply feqb_spec in Hx as ->. apply batch_inverse_0.
      - apply batch_inverse_nz. intros ->. rewrite feqb_refl in Hx. discriminate.
    Qed.
    Lemma inv0_nz (x : K) : x <> f0 -> inv0 x = finv x.
    Proof. intros. rewrite <- inv0_batch. now apply batch_inverse_nz. Qed.

    (** ** prove *)
    Lemma prove_loop_spec k : 1 <= threads E -> forall fuel a b (rng : fsrng S) pv, k <= fuel ->
      length a = 2 ^ k -> length b = 2 ^ k ->
      (exists zs, sipp_prove_loop P E S D fuel (2 ^ k) a b rng pv = Ok (pv ++ zs) /\ length zs = k /\
         zs = honest_elems (sipp_challenges P S D rng zs) a b /\
         Forall (fun x => x <> f0) (sipp_challenges P S D rng zs) /\
         fold_eq a b (dot (pr_e P) a b) zs (sipp_challenges P S D rng zs)) \/
      (sipp_prove_loop P E S D fuel (2 ^ k) a b rng pv = Panic /\
       exists xs, length xs < k /\ Forall (fun x => x <> f0) xs /\
         sipp_challenges P S D rng (honest_elems (xs ++ [f0]) a b) = xs ++ [f0]).
    Proof.
      intros HE. induction k as [|k IH]; intros fuel a b rng pv Hf Ha Hb.
      - left. exists []. cbn [Nat.pow] in *.
        destruct a as [|x [|? ?]], b as [|y [|? ?]]; try discriminate.
        rewrite app_nil_r. repeat split; auto.
        + destruct fuel; reflexivity.
        + constructor.
        + now apply fold_eq_nil.
      - destruct fuel as [|fuel]; [lia|].
        assert (H2 : 2 ^ Datatypes.S k = 2 ^ k + 2 ^ k) by (cbn [Nat.pow]; lia).
        pose proof (pow2_pos k) as Hp.
        destruct (split_list (2 ^ k) a ltac:(lia)) as (a1 & a2 & -> & Ha1 & Ha2 & _).
        destruct (split_list (2 ^ k) b ltac:(lia)) as (b1 & b2 & -> & Hb1 & Hb2 & _).
        rewrite Ha, H2 in Ha2. rewrite Hb, H2 in Hb2. replace (2 ^ k + 2 ^ k - 2 ^ k) with (2 ^ k) in * by lia.
        cbn [sipp_prove_loop]. destruct (Nat.eqb_spec (2 ^ Datatypes.S k) 1); [lia|].
        rewrite pow2_half, !slice_to_app, !slice_from_app by auto. cbn [rbind].
        rewrite !product_of_pairings_dot by (auto; congruence). cbn [rbind].
        set (zl := dot (pr_e P) a2 b1). set (zr := dot (pr_e P) a1 b2).
        assert (Ezl : cross_l (a1 ++ a2) (b1 ++ b2) = zl) by (apply cross_l_app; congruence).
        assert (Ezr : cross_r (a1 ++ a2) (b1 ++ b2) = zr) by (apply cross_r_app; congruence).
        destruct (sipp_challenge P S D rng zl zr) as [x rng'] eqn:Ec.
        destruct (f_eq_dec _ x f0) as [->|Hx].
        + right. rewrite finverse_0. cbn [runwrap rbind]. split; [reflexivity|].
          exists []. split; [cbn; lia|]. split; [constructor|]. cbn [app honest_elems sipp_challenges].
          rewrite Ezl, Ezr, Ec. reflexivity.
        + rewrite finverse_neq by auto. cbn [runwrap rbind].
          fold (vfold x a1 a2) (vfold (finv x) b1 b2).
          assert (Fa : half_fold x (a1 ++ a2) = vfold x a1 a2) by (apply half_fold_app; congruence).
          assert (Fb : half_fold (finv x) (b1 ++ b2) = vfold (finv x) b1 b2) by (apply half_fold_app; congruence).
          destruct (IH fuel (vfold x a1 a2) (vfold (finv x) b1 b2) rng' (pv ++ [(zl, zr)]) ltac:(lia)
                      ltac:(rewrite vfold_length; congruence) ltac:(rewrite vfold_length; congruence))
            as [(zs & Hr & Hlen & Hz & Hnz & Hfe)|(Hr & xs & Hlen & Hnz & Hc)].
          * left. exists ((zl, zr) :: zs). rewrite Hr, <- app_assoc. split; [reflexivity|].
            cbn [length sipp_challenges]. rewrite Ec. split; [now f_equal|].
            cbn [honest_elems]. rewrite Ezl, Ezr, Fa, Fb. split; [now f_equal|]. split; [now constructor|].
            assert (Hxl : length (sipp_challenges P S D rng' zs) = k) by (rewrite challenges_length; auto).
            apply fold_eq_cons; try congruence. rewrite batch_inverse_nz by auto. cbn [fst snd].
            rewrite (dot_fold (pr_e P) (pr_e_bilinear P)) in Hfe by (try congruence; field; auto).
            fold zl zr in Hfe. rewrite <- madd_assoc in Hfe. rewrite (madd_comm _ _ (finv x *m zr)) in Hfe. exact Hfe.
          * right. split; [exact Hr|]. exists (x :: xs). cbn [length app honest_elems sipp_challenges].
            split; [lia|]. split; [now constructor|]. rewrite Ezl, Ezr, Fa, Fb, Ec, Hc. reflexivity.
    Qed.

    (** ** Soundness *)
    (** the statement left after a round *)
    Definition sipp_round (st : list (pG1 P) * list (pG2 P) * pGT P) (z : pGT P * pGT P) (x : K) :=
      let '(a, b, v) := st in
      (half_fold x a, half_fold (inv0 x) b, v +m (x *m fst z +m inv0 x *m snd z)).
    Definition sipp_true (st : list (pG1 P) * list (pG2 P) * pGT P) : Prop :=
      let '(a, b, v) := st in v = pairing_sum P a b.
    (** challenges that can turn a false statement into a true one, and zero *)
    Definition sipp_bad st z (x : K) : Prop :=
      x = f0 \/ (~ sipp_true st /\ sipp_true (sipp_round st z x)).
    Fixpoint sipp_rounds st zs xs :=
      match zs, xs with
      | z :: zs, x :: xs => sipp_rounds (sipp_round st z x) zs xs
      | _, _ => st
      end.

    Lemma sipp_true_dec st : sipp_true st \/ ~ sipp_true st.
    Proof.
      destruct st as [[a b] v]. cbn. destruct (meqb v (pairing_sum P a b)) eqn:He.
      - left. now apply meqb_spec.
      - right. intros Hv. apply meqb_spec in Hv. congruence.
    Qed.

    Lemma sipp_bad_bound a b v z (l : list K) : (exists h, length a = h + h) -> length b = length a ->
      NoDup l -> (forall x, In x l -> sipp_bad (a, b, v) z x) -> length l <= 3.
    Proof.
      intros [h Ha] Hb Hnd Hbad.
      set (nz := filter (fun x : K => negb (feqb x f0)) l).
      assert (Hsub : incl l (f0 :: nz)).
      { intros x Hx. destruct (feqb x f0) eqn:E0; [left; symmetry; now apply feqb_spec|].
        right. apply filter_In. now rewrite E0. }
      pose proof (NoDup_incl_length Hnd Hsub) as Hlen. cbn [length] in Hlen.
      enough (length nz <= 2) by lia.
      assert (Hnn : forall x, In x nz -> x <> f0 /\ ~ sipp_true (a, b, v) /\ sipp_true (sipp_round (a, b, v) z x)).
      { intros x Hx. apply filter_In in Hx as [Hx H0].
        assert (x <> f0) by (intros ->; rewrite feqb_refl in H0; discriminate).
        destruct (Hbad x Hx) as [|[? ?]]; [contradiction|auto]. }
      destruct nz as [|y nz'] eqn:Enz; [cbn; lia|]. rewrite <- Enz in *.
      assert (Hfalse : ~ sipp_true (a, b, v)) by (apply (Hnn y); rewrite Enz; now left).
      destruct (split_list h a ltac:(lia)) as (a1 & a2 & -> & Ha1 & Ha2 & _).
      destruct (split_list h b ltac:(lia)) as (b1 & b2 & -> & Hb1 & Hb2 & _).
      replace (length (a1 ++ a2) - h) with h in Ha2 by lia. replace (length (b1 ++ b2) - h) with h in Hb2 by lia.
      set (zl := dot (pr_e P) a2 b1). set (zr := dot (pr_e P) a1 b2). set (t := dot (pr_e P) (a1 ++ a2) (b1 ++ b2)).
      cbn [sipp_true] in Hfalse. rewrite <- dot_pairing_sum in Hfalse by congruence. fold t in Hfalse.
      change 2 with (length [msub (snd z) zr; msub v t; msub (fst z) zl] - 1).
      apply roots_bound.
      - now apply NoDup_filter.
      - exists (msub v t). split; [right; now left|]. rewrite msub_eq0. exact Hfalse.
      - intros x Hx. destruct (Hnn x Hx) as (H0 & _ & Ht). cbn [sipp_true sipp_round] in Ht.
        rewrite !half_fold_app in Ht by congruence. rewrite inv0_nz in Ht by auto.
        rewrite <- dot_pairing_sum in Ht by (rewrite !vfold_length; congruence).
        rewrite (dot_fold (pr_e P) (pr_e_bilinear P)) in Ht by (try congruence; field; auto). fold zl zr t in Ht.
        cbn [mev]. rewrite mscale_0_r, madd_0_r.
        apply (f_equal (fun u => x *m (msub u (t +m finv x *m zr +m x *m zl)))) in Ht.
        transitivity (x *m msub (v +m (x *m fst z +m finv x *m snd z)) (t +m finv x *m zr +m x *m zl)).
        + clear Ht. generalize (fst z) (snd z). intros u w. module_norm; field; auto.
        + rewrite Ht. rewrite (proj2 (msub_eq0 _ _) eq_refl). apply mscale_0_r.
    Qed.

    Lemma sipp_rounds_sound k : forall a b v zs xs, length a = 2 ^ k -> length b = 2 ^ k -> length zs = k -> length xs = k ->
      fold_eq a b v zs xs -> ~ sipp_true (a, b, v) ->
      exists i, i < k /\ sipp_bad (sipp_rounds (a, b, v) (firstn i zs) (firstn i xs)) (nth i zs (m0, m0)) (nth i xs f0).
    Proof.
      induction k as [|k IH]; intros a b v zs xs Ha Hb Hz Hx Hfe Hf.
      - exfalso. destruct zs, xs; try discriminate. cbn [Nat.pow] in *.
        destruct a as [|x [|? ?]], b as [|y [|? ?]]; try discriminate.
        apply fold_eq_nil in Hfe. apply Hf. cbn [sipp_true]. now rewrite <- dot_pairing_sum.
      - destruct zs as [|z zs], xs as [|x xs]; try discriminate. injection Hz as Hz. injection Hx as Hx.
        assert (H2 : 2 ^ Datatypes.S k = 2 ^ k + 2 ^ k) by (cbn [Nat.pow]; lia).
        destruct (sipp_true_dec (sipp_round (a, b, v) z x)) as [Ht|Ht].
        + exists 0. split; [lia|]. cbn. right. auto.
        + destruct (split_list (2 ^ k) a ltac:(lia)) as (a1 & a2 & -> & Ha1 & Ha2 & _).
          destruct (split_list (2 ^ k) b ltac:(lia)) as (b1 & b2 & -> & Hb1 & Hb2 & _).
          rewrite Ha, H2 in Ha2. rewrite Hb, H2 in Hb2. replace (2 ^ k + 2 ^ k - 2 ^ k) with (2 ^ k) in * by lia.
          apply fold_eq_cons in Hfe; try congruence. rewrite inv0_batch in Hfe.
          cbn [sipp_round] in Ht. rewrite !half_fold_app in Ht by (rewrite ?Ha1, ?Ha2, ?Hb1, ?Hb2; reflexivity).
          assert (La : length (vfold x a1 a2) = 2 ^ k) by (rewrite vfold_length; congruence).
          assert (Lb : length (vfold (inv0 x) b1 b2) = 2 ^ k) by (rewrite vfold_length; congruence).
          destruct (IH _ _ _ zs xs La Lb Hz Hx Hfe Ht)
            as (i & Hi & Hbad).
          exists (Datatypes.S i). split; [lia|]. cbn [firstn nth sipp_rounds sipp_round].
          rewrite !half_fold_app by congruence. exact Hbad.
    Qed.

    Lemma challenges_firstn i : forall rng zs,
      sipp_challenges P S D rng (firstn i zs) = firstn i (sipp_challenges P S D rng zs).
    Proof.
      induction i; intros rng [|[zl zr] zs]; auto. cbn [firstn sipp_challenges].
      destruct (sipp_challenge P S D rng zl zr) as [x rng']. cbn [firstn]. now rewrite IHi.
    Qed.
  End Verify.
End SippFacts.

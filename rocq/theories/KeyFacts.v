(** The commitment-key polynomial and its KZG openings (C20, C21, C24-C26, C28). *)
Require Import List Arith NArith Lia Bool Field.
Import ListNotations.
Require Import Verif.Outcome Verif.Algebra Verif.Rust Verif.Spec Verif.ListFacts Verif.RustFacts
  Verif.InnerProducts Verif.Commitments Verif.InnerProductFacts Verif.CommitFacts Verif.Gipa
  Verif.GipaFacts Verif.Poly Verif.PolyFacts Verif.Tipa.

(** ** Product form *)
Section Product.
  Context {K : field}.
  Add Field KfKey : (f_theory K).
  Notation ev := (@poly_evaluate K).
  Implicit Types (t e c : list K) (p q x y z r : K).

  Definition prod t : K := fold_right fmul f1 t.

  Lemma fold_left_prod t x : fold_left fmul t x = x *f prod t.
  Proof.
    unfold prod. revert x. induction t; intros x; cbn [fold_left fold_right].
    - ring.
    - rewrite IHt. ring.
  Qed.

  Lemma ev_map_scale e x y : ev (map (fun u => u *f x) e) y = x *f ev e y.
  Proof.
    induction e; cbn [map].
    - cbn. ring.
    - rewrite !ev_cons, IHe. ring.
  Qed.

  Lemma ev_subs_from t : forall e y,
    ev (subs_from e t) y = ev e y *f prod (product_form_terms t (fpow y (length e))).
  Proof.
    induction t as [|x t IH]; intros e y; cbn [product_form_terms prod fold_right].
    - cbn [subs_from fold_left]. ring.
    - change (subs_from e (x :: t)) with (subs_from (subs_step e x) t). rewrite IH.
      unfold subs_step. rewrite ev_app, ev_map_scale, app_length, map_length, fpow_add.
      fold (prod (product_form_terms t (fpow y (length e) *f fpow y (length e)))). ring.
  Qed.

  Lemma ev_subs t y : ev (subs t) y = prod (product_form_terms t y).
  Proof.
    unfold subs. rewrite ev_subs_from. cbn. 
    replace (y *f f1) with y by ring. ring.
  Qed.

  (** transcript elements multiplied by p, p^2, p^4, ... *)
  Fixpoint shifted t p : list K :=
    match t with [] => [] | x :: t => (x *f p) :: shifted t (p *f p) end.

  Lemma shifted_length t p : length (shifted t p) = length t.
  Proof. revert p. induction t; cbn; auto. Qed.

  Lemma shifted_terms t p q : product_form_terms (shifted t p) q = product_form_terms t (q *f p).
  Proof.
    revert p q. induction t; intros p q; cbn; auto. f_equal.
    - ring.
    - rewrite IHt. f_equal. ring.
  Qed.

  Lemma shifted_neq0 t p : Forall (fun x => x <> f0) t -> p <> f0 -> Forall (fun x => x <> f0) (shifted t p).
  Proof.
    intros H. revert p. induction H; cbn; intros p Hp; constructor; auto using fmul_neq0.
  Qed.

  Lemma product_form_ev t z r :
    poly_eval_product_form t z r = ev (subs (shifted t r)) (z *f z).
  Proof.
    unfold poly_eval_product_form. rewrite fold_left_prod, ev_subs, shifted_terms. ring.
  Qed.

  Lemma product_form_ev_1 t z : poly_eval_product_form t z f1 = ev (subs t) (z *f z).
  Proof.
    unfold poly_eval_product_form. rewrite fold_left_prod, ev_subs.
    replace (z *f z *f f1) with (z *f z) by ring. ring.
  Qed.

  Lemma coefficients_loop_spec t : forall i p e, length e = 2 ^ i ->
    coefficients_loop i t p e = Ok (subs_from e (shifted t p)).
  Proof.
    induction t as [|x t IH]; intros i p e He; cbn [coefficients_loop shifted]; [reflexivity|].
    rewrite push_scaled_all by auto. cbn [rbind]. rewrite IH; [reflexivity|].
    unfold subs_step. rewrite app_length, map_length. cbn. lia.
  Qed.

  Lemma interleave_length {A} (l r : list A) : length (interleave l r) = length l + length r.
  Proof.
    revert r. induction l; intros r; cbn [interleave length]; auto.
    destruct r; cbn [length]; [lia|]. rewrite IHl. lia.
  Qed.

  Lemma interleave_even {A} (l : list A) d : forall (r : list A) i, S (length r) = length l ->
    i < length l -> nth (2 * i) (interleave l r) d = nth i l d.
  Proof.
    induction l; intros r i Hr Hi; [cbn in Hi; lia|]. cbn [interleave].
    destruct i; [reflexivity|]. replace (2 * S i) with (S (S (2 * i))) by lia. cbn [nth].
    destruct r; cbn [length] in *; [lia|]. cbn [nth]. apply IHl; lia.
  Qed.

  Lemma interleave_odd {A} (l : list A) d : forall (r : list A) i, S (length r) = length l ->
    i < length r -> nth (2 * i + 1) (interleave l r) d = nth i r d.
  Proof.
    induction l; intros r i Hr Hi; [cbn in Hr; lia|]. cbn [interleave].
    replace (2 * i + 1) with (S (2 * i)) by lia. cbn [nth].
    destruct r; cbn [length] in *; [lia|]. destruct i; [reflexivity|].
    replace (2 * S i) with (S (2 * i + 1)) by lia. cbn [nth]. apply IHl; lia.
  Qed.

  Lemma ev_interleave c z :
    ev (interleave c (repeat f0 (length c - 1))) z = ev c (z *f z).
  Proof.
    induction c as [|x c IH]; [reflexivity|]. cbn [length].
    replace (S (length c) - 1) with (length c) by lia. cbn [interleave].
    destruct c as [|y c]; [cbn; ring|].
    cbn [length repeat] in *. replace (S (length c) - 1) with (length c) in IH by lia.
    rewrite !(ev_cons x), (ev_cons f0), IH. ring.
  Qed.

  Lemma key_coefficients_ok t r :
    poly_coefficients_from_transcript t r =
      Ok (interleave (subs (shifted t r)) (repeat f0 (2 ^ length t - 1))).
  Proof.
    unfold poly_coefficients_from_transcript. rewrite coefficients_loop_spec by reflexivity.
    cbn [rbind]. fold (subs (shifted t r)). now rewrite subs_length, shifted_length.
  Qed.

  Lemma key_coefficients_ev t r l z : poly_coefficients_from_transcript t r = Ok l ->
    ev l z = poly_eval_product_form t z r.
  Proof.
    rewrite key_coefficients_ok. intros [= <-].
    rewrite product_form_ev, <- (shifted_length t r), <- subs_length, ev_interleave. reflexivity.
  Qed.

  Lemma subs_neq0 t : Forall (fun x => x <> f0) t -> Forall (fun x => x <> f0) (subs t).
  Proof.
    intros H. unfold subs. assert (He : Forall (fun x : K => x <> f0) [f1]) by (repeat constructor; apply f1_neq_f0).
    revert He. generalize [f1 : K]. induction H; intros e He; cbn; auto. apply IHForall.
    unfold subs_step. apply Forall_app. split; auto. apply Forall_map.
    revert He. apply Forall_impl. intros. now apply fmul_neq0.
  Qed.

  Lemma last_opt_nth {A} (l : list A) d : l <> [] -> last_opt l = Some (nth (length l - 1) l d).
  Proof.
    induction l as [|x [|y l] IH]; intros H; [congruence|reflexivity|].
    cbn [last_opt length] in *. rewrite IH by discriminate. cbn [length].
    replace (S (S (length l)) - 1) with (S (length l)) by lia.
    replace (S (length l) - 1) with (length l) by lia. reflexivity.
  Qed.

  Lemma key_coefficients_stripped t r l : Forall (fun x => x <> f0) t -> r <> f0 ->
    poly_coefficients_from_transcript t r = Ok l ->
    stripped l /\ length l = 2 * 2 ^ length t - 1.
  Proof.
    intros Ht Hr. rewrite key_coefficients_ok. intros [= <-].
    pose proof (pow2_pos (length t)) as Hp.
    assert (Hl : length (subs (shifted t r)) = 2 ^ length t) by now rewrite subs_length, shifted_length.
    assert (HL : length (interleave (subs (shifted t r)) (repeat f0 (2 ^ length t - 1))) = 2 * 2 ^ length t - 1).
    { rewrite interleave_length, Hl, repeat_length. lia. }
    split; [|exact HL].
    eapply last_stripped.
    - rewrite (last_opt_nth _ f0).
      + rewrite HL. replace (2 * 2 ^ length t - 1 - 1) with (2 * (2 ^ length t - 1)) by lia.
        rewrite interleave_even; [reflexivity| |]; rewrite ?repeat_length, Hl; lia.
      + intros E. rewrite E in HL. cbn [length] in HL. lia.
    - assert (HF := subs_neq0 _ (shifted_neq0 _ _ Ht Hr)). rewrite Forall_forall in HF. apply HF.
      apply nth_In. lia.
  Qed.

  (** ** the keys *)
  Definition key_vec {G : module K} (n : nat) (s r : K) (g : G) : list G :=
    map (fun i => fpow (s *f s *f r) i *m g) (seq 0 n).

  Lemma key_vec_length {G : module K} n s r (g : G) : length (key_vec n s r g) = n.
  Proof. unfold key_vec. now rewrite map_length, seq_length. Qed.

  Lemma dot_key_vec {G : module K} s r (g : G) t :
    dot smul (key_vec (2 ^ length t) s r g) (subs t : list (fmod K))
    = poly_eval_product_form t s r *m g.
  Proof.
    unfold key_vec. rewrite <- (map_map (fpow (s *f s *f r)) (fun x => x *m g)), <- push_powers_map.
    rewrite <- (subs_length t), dot_powers. unfold poly_eval_product_form.
    rewrite fold_left_prod, ev_subs. f_equal.
  Qed.

  Lemma step_by2_powers {G : module K} n s (g : G) :
    step_by2 (map (fun i => fpow s i *m g) (seq 0 (2 * n - 1))) = key_vec n s f1 g.
  Proof.
    apply (nth_ext _ _ m0 m0).
    - rewrite step_by2_length, map_length, seq_length, key_vec_length.
      destruct n; [reflexivity|]. replace (2 * S n - 1 + 1) with (S n * 2) by lia. now rewrite Nat.div_mul.
    - intros i Hi. rewrite step_by2_length, map_length, seq_length in Hi.
      assert (i < n).
      { destruct n; [cbn in Hi; lia|]. replace (2 * S n - 1 + 1) with (S n * 2) in Hi by lia.
        now rewrite Nat.div_mul in Hi. }
      rewrite step_by2_nth. unfold key_vec.
      rewrite (nth_indep (map _ (seq 0 (2 * n - 1))) m0 (fpow s 0 *m g)) by (rewrite map_length, seq_length; lia).
      rewrite (map_nth (fun i => fpow s i *m g)), seq_nth by lia.
      rewrite (nth_indep (map _ (seq 0 n)) m0 (fpow (s *f s *f f1) 0 *m g)) by (rewrite map_length, seq_length; lia).
      rewrite (map_nth (fun i => fpow (s *f s *f f1) i *m g)), seq_nth by lia.
      f_equal. cbn [Nat.add]. rewrite fpow_mul. f_equal. cbn. ring.
  Qed.

  (** ** the opening *)
  Lemma prove_ck_kzg_opening_ok {G : module K} n s (g : G) t r (c : K) :
    Forall (fun x => x <> f0) t -> r <> f0 -> n = 2 * 2 ^ length t - 1 ->
    exists y, prove_ck_kzg_opening (map (fun i => fpow s i *m g) (seq 0 n)) t r c = Ok (y *m g) /\
      poly_eval_product_form t s r = y *f (s -f c) +f poly_eval_product_form t c r.
  Proof.
    intros Ht Hr Hn. unfold prove_ck_kzg_opening.
    destruct (poly_coefficients_from_transcript t r) as [l| | |] eqn:El;
      try (rewrite key_coefficients_ok in El; discriminate).
    destruct (key_coefficients_stripped t r l Ht Hr El) as [Hs Hl].
    cbn [rbind]. unfold from_coefficients at 1. rewrite Hs, map_length, seq_length, Hl, Hn, Nat.eqb_refl.
    cbn [rassert rbind]. unfold from_coefficients at 1. rewrite Hs.
    set (a := poly_sub l (from_coefficients [poly_eval_product_form t c r])).
    destruct (poly_div_linear a c) as [q [Hq [Hql Hqe]]]; [apply poly_sub_stripped|].
    rewrite Hq. cbn [rbind].
    assert (Hal : length a <= length l).
    { unfold a. etransitivity; [apply poly_sub_length|].
      pose proof (strip_length [poly_eval_product_form t c r]). cbn [length] in H.
      pose proof (pow2_pos (length t)). unfold from_coefficients. lia. }
    unfold multiexp_ip. rewrite map_length, seq_length, resize_length, Nat.eqb_refl. cbn [negb].
    rewrite msm_powers by lia. cbn [runwrap]. exists (ev q s). split; [reflexivity|].
    pose proof (Hqe s) as Hx. unfold a in Hx. rewrite !ev_poly_sub in Hx.
    unfold from_coefficients in Hx. rewrite !ev_strip in Hx. cbn [poly_evaluate fold_right] in Hx.
    rewrite !(key_coefficients_ev t r l _ El) in Hx.
    replace (poly_eval_product_form t s r) with
      (poly_eval_product_form t s r -f (poly_eval_product_form t c r +f s *f f0) +f poly_eval_product_form t c r)
      by ring.
    rewrite Hx. ring.
  Qed.
End Product.

(** ** verification of the openings *)
Section Verify.
  Context {P : pairing}.
  Notation K := (pK P).
  Add Field KfV : (f_theory (pK P)).
  Variables (alpha beta : pK P).
  Definition trap_vsrs : vsrs P := mk_vsrs (pr_g P) (pr_h P) (beta *m pr_g P) (alpha *m pr_h P).

  Lemma pr_e_sub_l a b c : pr_e P (a -m b) c = pr_e P a c -m pr_e P b c.
  Proof. unfold msub. rewrite e_add_l, !mopp_scale, e_scale_l. reflexivity. Qed.
  Lemma pr_e_sub_r a b c : pr_e P a (b -m c) = pr_e P a b -m pr_e P a c.
  Proof. unfold msub. rewrite e_add_r, !mopp_scale, e_scale_r. reflexivity. Qed.

  Lemma msub_eq0 {M : module K} (a b : M) : a -m b = m0 <-> a = b.
  Proof.
    unfold msub. split; intros H.
    - apply (madd_cancel_l _ M (mopp b)). rewrite (madd_comm _ M (mopp b) a), H.
      rewrite (madd_comm _ M (mopp b) b), madd_opp. reflexivity.
    - subst. apply madd_opp.
  Qed.

  Lemma pr_e_inj_r b b' : pr_e P (pr_g P) b = pr_e P (pr_g P) b' <-> b = b'.
  Proof.
    split; [|now intros ->]. intros H. apply msub_eq0, e_nondeg_r. rewrite pr_e_sub_r, H.
    apply msub_eq0. reflexivity.
  Qed.
  Lemma pr_e_inj_l a a' : pr_e P a (pr_h P) = pr_e P a' (pr_h P) <-> a = a'.
  Proof.
    split; [|now intros ->]. intros H. apply msub_eq0, e_nondeg_l. rewrite pr_e_sub_l, H.
    apply msub_eq0. reflexivity.
  Qed.

  Lemma scale_sub {M : module K} x y (a : M) : x *m a -m y *m a = (x -f y) *m a.
  Proof. unfold msub. rewrite mopp_scale, <- mscale_mul, <- mscale_add_l. f_equal. ring. Qed.

  Lemma verify_g2_iff ck_final opening t r c :
    verify_ck_g2_kzg_opening trap_vsrs ck_final opening t r c = Ok true <->
    ck_final -m poly_eval_product_form t c r *m pr_h P = (beta -f c) *m opening.
  Proof.
    unfold verify_ck_g2_kzg_opening, trap_vsrs. cbn [v_g v_h v_g_beta].
    rewrite scale_sub, e_scale_l, <- e_scale_r.
    split; intros H.
    - apply pr_e_inj_r, meqb_spec. congruence.
    - f_equal. apply meqb_spec. now apply pr_e_inj_r.
  Qed.

  Lemma verify_g1_iff ck_final opening t r c :
    verify_ck_g1_kzg_opening trap_vsrs ck_final opening t r c = Ok true <->
    ck_final -m poly_eval_product_form t c r *m pr_g P = (alpha -f c) *m opening.
  Proof.
    unfold verify_ck_g1_kzg_opening, trap_vsrs. cbn [v_g v_h v_h_alpha].
    rewrite scale_sub, e_scale_r, <- e_scale_l.
    split; intros H.
    - apply pr_e_inj_l, meqb_spec. congruence.
    - f_equal. apply meqb_spec. now apply pr_e_inj_l.
  Qed.

  Lemma opening_g2_complete n t r c : Forall (fun x => x <> f0) t -> r <> f0 -> n = 2 * 2 ^ length t - 1 ->
    exists o, prove_ck_kzg_opening (map (fun i => fpow beta i *m pr_h P) (seq 0 n)) t r c = Ok o /\
      verify_ck_g2_kzg_opening trap_vsrs (poly_eval_product_form t beta r *m pr_h P) o t r c = Ok true.
  Proof.
    intros Ht Hr Hn. destruct (prove_ck_kzg_opening_ok n beta (pr_h P) t r c Ht Hr Hn) as [y [H1 H2]].
    exists (y *m pr_h P). split; [exact H1|]. apply verify_g2_iff. rewrite scale_sub, <- mscale_mul.
    f_equal. rewrite H2. ring.
  Qed.

  Lemma opening_g1_complete n t r c : Forall (fun x => x <> f0) t -> r <> f0 -> n = 2 * 2 ^ length t - 1 ->
    exists o, prove_ck_kzg_opening (map (fun i => fpow alpha i *m pr_g P) (seq 0 n)) t r c = Ok o /\
      verify_ck_g1_kzg_opening trap_vsrs (poly_eval_product_form t alpha r *m pr_g P) o t r c = Ok true.
  Proof.
    intros Ht Hr Hn. destruct (prove_ck_kzg_opening_ok n alpha (pr_g P) t r c Ht Hr Hn) as [y [H1 H2]].
    exists (y *m pr_g P). split; [exact H1|]. apply verify_g1_iff. rewrite scale_sub, <- mscale_mul.
    f_equal. rewrite H2. ring.
  Qed.
End Verify.

(** ** rand_challenge *)
Section Rand.
  Context {K : field}.
  Variable D : bytes -> bytes.

  Lemma rand_challenge_spec_from (payload : bytes) : forall fuel n,
    (exists m (v : K), n <= m < n + fuel /\ f_rand (D (usize_be m ++ payload)) = Some v /\
        (forall i, n <= i < m -> f_rand (f := K) (D (usize_be i ++ payload)) = None) /\
        rand_challenge D fuel n payload = Ok v)
    \/ ((forall i, n <= i < n + fuel -> f_rand (f := K) (D (usize_be i ++ payload)) = None) /\
        rand_challenge (K := K) D fuel n payload = Loop).
  Proof.
    induction fuel; intros n; cbn [rand_challenge].
    - right. split; [intros; lia|reflexivity].
    - destruct (f_rand (D (usize_be n ++ payload))) as [v|] eqn:Ev.
      + left. exists n, v. repeat split; auto; try lia; intros; lia.
      + destruct (IHfuel (S n)) as [[m [v [Hm [H1 [H2 H3]]]]]|[H1 H2]].
        * left. exists m, v. repeat split; auto; try lia. intros i Hi.
          destruct (Nat.eq_dec i n); [subst; auto|apply H2; lia].
        * right. split; auto. intros i Hi. destruct (Nat.eq_dec i n); [subst; auto|apply H1; lia].
  Qed.

  Lemma rand_challenge_outcome fuel n payload :
    rand_challenge (K := K) D fuel n payload = Loop \/
    exists v : K, rand_challenge D fuel n payload = Ok v.
  Proof.
    destruct (rand_challenge_spec_from payload fuel n) as [[m [v [_ [_ [_ H]]]]]|[_ H]]; eauto.
  Qed.
End Rand.

Lemma invert_all_ok {K : field} (l : list K) : Forall (fun x => x <> f0) l -> invert_all l = Ok (map finv l).
Proof.
  unfold invert_all. induction 1; cbn; auto. rewrite finverse_neq by auto. cbn. now rewrite IHForall.
Qed.
Lemma invert_all_inv {K : field} (l l' : list K) : invert_all l = Ok l' -> Forall (fun x => x <> f0) l /\ l' = map finv l.
Proof.
  unfold invert_all. revert l'. induction l; cbn; intros l' H.
  - injection H as <-. auto.
  - apply rbind_ok in H as [x [H1 H]]. apply rbind_ok in H as [l'' [H2 H]]. injection H as <-.
    apply runwrap_ok, finverse_some in H1 as [H1 ->]. destruct (IHl _ H2) as [H3 ->]. auto.
Qed.
Lemma map_finv_neq0 {K : field} (l : list K) : Forall (fun x => x <> f0) l -> Forall (fun x => x <> f0) (map finv l).
Proof. intros H. apply Forall_map. revert H. apply Forall_impl. intros. now apply finv_neq0. Qed.

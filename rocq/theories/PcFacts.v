(** KZG (C32, C33), bivariate polynomials (C35, C36), bivariate commitment (C34). *)
Require Import List Arith NArith ZArith Lia Bool Field.
Import ListNotations.
Require Import Verif.Outcome Verif.Algebra Verif.Rust Verif.Spec Verif.ListFacts Verif.RustFacts
  Verif.InnerProducts Verif.Commitments Verif.InnerProductFacts Verif.CommitFacts Verif.Gipa
  Verif.GipaFacts Verif.GipaComplete Verif.GipaTop Verif.Poly Verif.PolyFacts Verif.Tipa Verif.KeyFacts
  Verif.TipaFacts Verif.Ssm Verif.SsmFacts Verif.Floats Verif.PolyCommit.

Section Rows.
  Context {K : field}.
  Add Field KfRows : (f_theory K).
  Notation ev := (@poly_evaluate K).
  Implicit Types (p row : list K) (x y z : K).

  (** a polynomial whose degree is defined and less than m *)
  Definition wf_row (m : nat) row : Prop := exists d, poly_degree row = Ok d /\ d + 1 <= m.

  Lemma ev_zero row z : poly_is_zero row = true -> ev row z = f0.
  Proof. intros H. apply poly_is_zero_strip in H. now rewrite <- ev_strip, H. Qed.

  Lemma wf_row_ev_resize m row z : wf_row m row -> ev (resize m f0 row) z = ev row z.
  Proof.
    intros [d [H Hd]]. destruct (poly_degree_ok _ _ H) as [Hs|[Hz ->]].
    - rewrite (poly_degree_stripped row Hs) in H. injection H as <-. apply ev_resize. lia.
    - rewrite (ev_zero row) by auto. unfold resize. rewrite ev_app, ev_repeat0.
      rewrite ev_zero; [ring|].
      unfold poly_is_zero in *. rewrite forallb_forall in *. intros c Hc. apply Hz.
      rewrite <- (firstn_skipn m row). apply in_or_app. now left.
  Qed.

  Lemma wf_row_stripped m row : stripped row -> 1 <= m -> length row <= m -> wf_row m row.
  Proof. intros H Hm Hl. exists (length row - 1). split; [now apply poly_degree_stripped|lia]. Qed.

  Lemma wf_row_nil m : 1 <= m -> wf_row m [].
  Proof. intros. exists 0. split; [reflexivity|lia]. Qed.

  Lemma wf_row_div m row z : wf_row m row ->
    exists q, poly_div row (from_coefficients [fopp z; f1]) = Ok q /\ length q <= m /\
      forall x, ev row x = ev q x *f (x -f z) +f ev row z.
  Proof.
    intros [d [H Hd]]. destruct (poly_degree_ok _ _ H) as [Hs|[Hz ->]].
    - destruct (poly_div_linear row z Hs) as [q [H1 [H2 H3]]]. exists q. repeat split; auto.
      rewrite (poly_degree_stripped row Hs) in H. injection H as <-. lia.
    - exists []. unfold poly_div. rewrite Hz. repeat split; [cbn; lia|]. intros x.
      rewrite !(ev_zero row) by auto. cbn. ring.
  Qed.

  (** ** evaluation of bivariate polynomials *)
  Lemma fold_left_fadd (l : list K) a : fold_left fadd l a = a +f fbig (length l) (fat l).
  Proof.
    revert a. induction l; intros a0; cbn [fold_left length].
    - cbn. ring.
    - rewrite IHl, fbig_S_l. unfold fat. cbn [nth]. ring.
  Qed.

  Lemma bipoly_evaluate_rows (p : bipoly K) x y :
    bipoly_evaluate p (x, y) = fbig (length p) (fun i => fpow x i *f ev (nth i p []) y).
  Proof.
    unfold bipoly_evaluate. rewrite fold_left_fadd.
    rewrite zipw_length_eq by (now rewrite push_powers_length). rewrite push_powers_length.
    transitivity (f0 +f fbig (length p) (fun i => fpow x i *f ev (nth i p []) y)); [|ring]. f_equal.
    apply fbig_ext. intros i Hi. unfold fat.
    rewrite (zipw_nth _ _ _ i f0 [] f0) by (rewrite ?push_powers_length; auto).
    f_equal. now apply (push_powers_nth (length p) x i).
  Qed.

  Lemma fbig_pad n m (F : nat -> K) : n <= m -> (forall i, n <= i < m -> F i = f0) -> fbig m F = fbig n F.
  Proof.
    intros H HF. replace m with (n + (m - n)) by lia. rewrite fbig_split.
    rewrite (fbig_ext (m - n) _ (fun _ => f0)).
    - rewrite fbig_0. ring.
    - intros i Hi. apply HF. lia.
  Qed.

  Lemma bipoly_evaluate_pad (p : bipoly K) x y n : length p <= n ->
    bipoly_evaluate p (x, y) = fbig n (fun i => fpow x i *f ev (nth i (resize n [] p) []) y).
  Proof.
    intros H. rewrite bipoly_evaluate_rows. symmetry.
    rewrite (fbig_ext n _ (fun i => fpow x i *f ev (nth i p []) y)).
    - apply fbig_pad; auto. intros i Hi. rewrite nth_overflow by lia. cbn. ring.
    - intros i Hi. now rewrite resize_nth.
  Qed.

  (** ** partial evaluation *)
  Lemma y_eval_coefficients_ok ny nx (px : list K) coeffs :
    length px = nx -> length coeffs = nx -> Forall (fun r => length r = ny) coeffs ->
    y_eval_coefficients ny nx px coeffs =
      Ok (map (fun j => fbig nx (fun i => fat px i *f fat (nth i coeffs []) j)) (seq 0 ny)).
  Proof.
    intros Hp Hc Hr. unfold y_eval_coefficients. apply rmapM_ok_map. intros j Hj. apply in_seq in Hj.
    rewrite (rmapM_ok_map _ (fun i => fat px i *f fat (nth i coeffs []) j)).
    - cbn [rbind]. rewrite fold_left_fadd. f_equal.
      rewrite map_length, seq_length.
      transitivity (f0 +f fbig nx (fun i => fat px i *f fat (nth i coeffs []) j)); [|ring].
      f_equal. apply fbig_ext. intros i Hi. unfold fat at 1.
      set (F := fun i => fat px i *f fat (nth i coeffs []) j).
      rewrite (nth_indep _ f0 (F 0)) by (rewrite map_length, seq_length; auto).
      rewrite map_nth, seq_nth by auto. reflexivity.
    - intros i Hi. apply in_seq in Hi.
      rewrite (index_ok px i f0) by lia. cbn [rbind].
      rewrite (index_ok coeffs i []) by lia. cbn [rbind].
      rewrite (index_ok _ j f0).
      + reflexivity.
      + rewrite Forall_forall in Hr. rewrite (Hr (nth i coeffs [])) by (apply nth_In; lia). lia.
  Qed.

  Lemma ev_y_eval ny nx (px : list K) coeffs z :
    length coeffs = nx -> Forall (fun r => length r = ny) coeffs ->
    ev (map (fun j => fbig nx (fun i => fat px i *f fat (nth i coeffs []) j)) (seq 0 ny)) z =
    fbig nx (fun i => fat px i *f ev (nth i coeffs []) z).
  Proof.
    intros Hc Hr. rewrite ev_poly_at. unfold poly_at. rewrite map_length, seq_length.
    rewrite (fbig_ext ny _ (fun j => fbig nx (fun i => fat px i *f fat (nth i coeffs []) j *f fpow z j))).
    - rewrite (fbig_swap ny nx (fun j i => fat px i *f fat (nth i coeffs []) j *f fpow z j)).
      apply fbig_ext. intros i Hi. rewrite ev_poly_at. unfold poly_at.
      rewrite Forall_forall in Hr. rewrite (Hr (nth i coeffs [])) by (apply nth_In; lia).
      rewrite <- fbig_scale. apply fbig_ext. intros j Hj. ring.
    - intros j Hj. unfold fat at 1.
      set (F := fun j => fbig nx (fun i => fat px i *f fat (nth i coeffs []) j)).
      rewrite (nth_indep _ f0 (F 0)) by (rewrite map_length, seq_length; auto).
      rewrite map_nth, seq_nth by auto. unfold F. cbn [Nat.add].
      rewrite (Rmul_comm (F_R (f_theory K))), <- fbig_scale. apply fbig_ext. intros. ring.
  Qed.

  (** ** univariate to bivariate *)
  Lemma take_row_ok {A} n : forall (l : list A), n <= length l ->
    take_row n l = Ok (firstn n l, skipn n l).
  Proof.
    induction n; intros [|x l] H; cbn [length] in H; try lia; cbn [take_row hd_error runwrap rbind tl firstn skipn]; auto.
    rewrite IHn by lia. reflexivity.
  Qed.

  Lemma take_rows_ok rows cols : forall p, length p = rows * cols ->
    exists rs, take_rows rows cols p = Ok rs /\ length rs = rows /\
      Forall (fun r => stripped r /\ length r <= cols) rs /\
      forall z, ev p z = fbig rows (fun i => fpow (fpow z cols) i *f ev (nth i rs []) z).
  Proof.
    induction rows; intros p Hp.
    - exists []. destruct p; [|discriminate]. repeat split; auto.
    - cbn [take_rows]. rewrite take_row_ok by (rewrite Hp; cbn; lia). cbn [rbind].
      destruct (IHrows (skipn cols p)) as [rs [H1 [H2 [H3 H4]]]].
      { rewrite skipn_length, Hp. cbn. lia. }
      rewrite H1. cbn [rbind]. eexists. split; [reflexivity|]. split; [cbn; lia|]. split.
      + constructor; auto. split; [apply strip_stripped|].
        etransitivity; [apply strip_length|]. rewrite firstn_length. lia.
      + intros z. rewrite fbig_S_l. cbn [nth fpow]. unfold from_coefficients. rewrite ev_strip.
        rewrite <- (firstn_skipn cols p) at 1. rewrite ev_app, H4, firstn_length.
        rewrite Nat.min_l by (rewrite Hp; cbn; lia).
        rewrite <- fbig_scale.
        replace (f1 *f ev (firstn cols p) z) with (ev (firstn cols p) z) by ring. f_equal.
        apply fbig_ext. intros i Hi. ring.
  Qed.

  Lemma bivariate_form_ok xd yd p : exists bp, bivariate_form (xd, yd) p = Ok bp /\ length bp = xd + 1 /\
    Forall (fun r => stripped r /\ length r <= yd + 1) bp /\
    forall z, bipoly_evaluate bp (fpow z (yd + 1), z) = ev (firstn ((xd + 1) * (yd + 1)) p) z.
  Proof.
    unfold bivariate_form. rewrite chain_take_resize.
    destruct (take_rows_ok (xd + 1) (yd + 1) (resize ((xd + 1) * (yd + 1)) f0 p)) as [rs [H1 [H2 [H3 H4]]]].
    { apply resize_length. }
    exists rs. repeat split; auto. intros z. rewrite bipoly_evaluate_rows, H2, <- H4.
    unfold resize. rewrite ev_app, ev_repeat0. ring.
  Qed.
End Rows.

Section KzgFacts.
  Context {R : Type} {P : pairing}.
  Notation K := (pK P).
  Add Field KfKzg : (f_theory (pK P)).
  Notation ev := (@poly_evaluate (pK P)).
  Variables alpha beta : pK P.

  Definition kzg_powers (n : nat) : list (pG1 P) := map (fun i => fpow alpha i *m pr_g P) (seq 0 n).
  Lemma kzg_powers_length n : length (kzg_powers n) = n.
  Proof. unfold kzg_powers. now rewrite map_length, seq_length. Qed.

  Lemma kzg_msm n q : msm (kzg_powers n) (resize n f0 q) = Some (ev (resize n f0 q) alpha *m pr_g P).
  Proof.
    rewrite <- (resize_self n f0 (resize n f0 q)) at 1 by apply resize_length.
    apply msm_powers. rewrite resize_length. lia.
  Qed.

  Lemma kzg_commit_ok n p : wf_row n p -> kzg_commit (kzg_powers n) p = Ok (ev p alpha *m pr_g P).
  Proof.
    intros Hw. pose proof Hw as [d [H1 H2]]. unfold kzg_commit. rewrite H1. cbn [rbind].
    rewrite kzg_powers_length. destruct (Nat.leb_spec (d + 1) n); [|lia]. cbn [rassert rbind].
    rewrite kzg_msm, wf_row_ev_resize by auto. reflexivity.
  Qed.

  (** anything else panics *)
  Lemma kzg_commit_panic n p : ~ wf_row n p -> kzg_commit (kzg_powers n) p = Panic.
  Proof.
    intros Hw. unfold kzg_commit. rewrite kzg_powers_length.
    destruct (poly_degree p) as [d|e| |] eqn:Ed; cbn [rbind]; auto.
    - destruct (Nat.leb_spec (d + 1) n); [|reflexivity]. exfalso. apply Hw. exists d. auto.
    - unfold poly_degree in Ed. destruct (poly_is_zero p); [discriminate|].
      destruct (match last_opt p with Some c => negb (feqb c f0) | None => false end); discriminate.
    - unfold poly_degree in Ed. destruct (poly_is_zero p); [discriminate|].
      destruct (match last_opt p with Some c => negb (feqb c f0) | None => false end); discriminate.
  Qed.

  Lemma kzg_verify_iff com z e proof :
    kzg_verify (trap_vsrs alpha beta) com z e proof = Ok true <->
    com -m e *m pr_g P = (alpha -f z) *m proof.
  Proof.
    unfold kzg_verify, trap_vsrs. cbn [v_g v_h v_h_alpha].
    rewrite scale_sub, e_scale_r, <- e_scale_l.
    split; intros H.
    - apply pr_e_inj_l, meqb_spec. congruence.
    - f_equal. apply meqb_spec. now apply pr_e_inj_l.
  Qed.

  Lemma kzg_open_ok n p z : wf_row n p ->
    exists o, kzg_open (kzg_powers n) p z = Ok o /\
      kzg_verify (trap_vsrs alpha beta) (ev p alpha *m pr_g P) z (ev p z) o = Ok true.
  Proof.
    intros Hw. pose proof Hw as [d [H1 H2]]. unfold kzg_open. rewrite H1. cbn [rbind].
    rewrite kzg_powers_length. destruct (Nat.leb_spec (d + 1) n); [|lia]. cbn [rassert rbind].
    destruct (wf_row_div n p z Hw) as [q [Hq [Hl He]]]. rewrite Hq. cbn [rbind].
    rewrite kzg_msm, ev_resize by auto. cbn [runwrap]. eexists. split; [reflexivity|].
    apply kzg_verify_iff. rewrite scale_sub, <- mscale_mul. f_equal. rewrite (He alpha). ring.
  Qed.

  (** two evaluations accepted at one point *)
  Lemma kzg_binding com z e e' proof proof' : e <> e' ->
    kzg_verify (trap_vsrs alpha beta) com z e proof = Ok true ->
    kzg_verify (trap_vsrs alpha beta) com z e' proof' = Ok true ->
    (alpha -f z) *m (finv (e' -f e) *m (proof -m proof')) = pr_g P.
  Proof.
    intros He H1 H2. apply kzg_verify_iff in H1, H2.
    assert (Hd : e' -f e <> f0).
    { intros H. apply (proj1 (fsub_eq0 _ _ _)) in H. apply He. symmetry. exact H. }
    rewrite <- mscale_mul, (Rmul_comm (F_R (f_theory (pK P)))), mscale_mul.
    assert (Hs : (alpha -f z) *m (proof -m proof') = (e' -f e) *m pr_g P).
    { unfold msub at 1. rewrite mscale_add_r, <- H1.
      replace ((alpha -f z) *m mopp proof') with (mopp ((alpha -f z) *m proof')).
      2:{ rewrite !mopp_scale, <- !mscale_mul. f_equal. ring. }
      rewrite <- H2, <- scale_sub. unfold msub. rewrite !mopp_scale. module_norm; ring. }
    rewrite Hs, <- mscale_mul, finv_l by auto. apply mscale_1.
  Qed.

  Lemma kzg_setup_ok rand (rng : R) d :
    exists rng', kzg_setup rand rng d =
      Ok (map (fun i => fpow (fst (rand rng)) i *m pr_g P) (seq 0 (d + 1)),
          trap_vsrs (fst (rand rng)) (fst (rand (snd (rand rng)))), rng').
  Proof.
    unfold kzg_setup. destruct (rand rng) as [a rng1]. cbn [fst snd]. destruct (rand rng1) as [b rng2]. cbn [fst].
    rewrite structured_generators_ok by lia. cbn [rbind]. eexists. reflexivity.
  Qed.
End KzgFacts.

(** ** the bivariate commitment *)
Section BpcFacts.
  Context {R : Type} {P : pairing}.
  Notation K := (pK P).
  Add Field KfBpc : (f_theory (pK P)).
  Notation ev := (@poly_evaluate (pK P)).
  Variables (E E' : penv) (HE : 1 <= threads E) (HE' : 1 <= threads E').
  Variable D : bytes -> bytes.
  Variable fuel : nat.
  Variables rand_g2 rand_g2' : sampler R (pG2 P).

  Definition trap_bsrs (alpha beta : K) (x_degree y_degree : nat) : srs P * list (pG1 P) :=
    (mk_srs [pr_g P] (map (fun i => fpow beta i *m pr_h P) (seq 0 (2 * x_degree + 1)))
       (beta *m pr_g P) (alpha *m pr_h P), kzg_powers alpha (y_degree + 1)).

  Lemma bpc_setup_ok rand (rng : R) xd yd :
    exists rng', bpc_setup P rand rng xd yd =
      Ok (trap_bsrs (fst (rand rng)) (fst (rand (snd (rand rng)))) xd yd, rng').
  Proof.
    clear HE HE'. unfold bpc_setup. destruct (rand rng) as [al rng1]. cbn [fst snd].
    destruct (rand rng1) as [be rng2]. cbn [fst].
    rewrite !structured_generators_ok by lia. cbn [rbind]. eexists. reflexivity.
  Qed.

  Lemma trap_bsrs_vkey alpha beta xd yd :
    get_verifier_key (fst (trap_bsrs alpha beta xd yd)) = Ok (trap_vsrs alpha beta).
  Proof.
    clear HE HE'. unfold get_verifier_key, trap_bsrs. cbn [fst h_beta_powers g_alpha_powers srs_g_beta srs_h_alpha].
    rewrite Nat.add_1_r. cbn [seq map index nth_error rbind runwrap]. unfold trap_vsrs. cbn [fpow].
    now rewrite mscale_1.
  Qed.

  Lemma trap_bsrs_ck alpha beta xd yd :
    fst (get_commitment_keys (fst (trap_bsrs alpha beta xd yd))) = key_vec (xd + 1) beta f1 (pr_h P).
  Proof.
    clear HE HE'. unfold get_commitment_keys, trap_bsrs. cbn [fst h_beta_powers g_alpha_powers].
    replace (2 * xd + 1) with (2 * (xd + 1) - 1) by lia. apply step_by2_powers.
  Qed.

  Section Run.
    Variables (alpha beta : K) (k xd yd : nat) (p : bipoly K).
    Hypothesis Hx : xd + 1 = 2 ^ S k.
    Hypothesis Hlen : length p <= xd + 1.
    Hypothesis Hrows : Forall (wf_row (yd + 1)) p.
    Let s := trap_bsrs alpha beta xd yd.
    Let n := xd + 1.
    Let m := yd + 1.
    Let rows := resize n [] p.
    Let coms : list (pG1 P) := map (fun r => ev r alpha *m pr_g P) rows.
    Let ka := key_vec n beta f1 (pr_h P).

    Lemma rows_length : length rows = n.
    Proof. apply resize_length. Qed.
    Lemma rows_wf : Forall (wf_row m) rows.
    Proof.
      clear HE HE' Hx Hlen. unfold rows, resize. apply Forall_app. split.
      - apply Forall_forall. intros r Hr. rewrite Forall_forall in Hrows. apply Hrows.
        rewrite <- (firstn_skipn n p). apply in_or_app. now left.
      - apply Forall_forall. intros r Hr. apply repeat_spec in Hr as ->. apply wf_row_nil. unfold m. lia.
    Qed.
    Lemma coms_length : length coms = n.
    Proof. unfold coms. rewrite map_length. apply rows_length. Qed.

    Lemma bpc_commit_ok :
      bpc_commit P E rand_g2 s p = Ok (dot (phi_g1 P) ka coms, coms).
    Proof.
      clear HE' Hx. unfold bpc_commit. pose proof (trap_bsrs_ck alpha beta xd yd) as Hck. fold s n ka in Hck.
      destruct s as [is ks] eqn:Es. cbn [fst] in Hck. rewrite Hck.
      assert (Hks : ks = kzg_powers alpha m) by (unfold s, trap_bsrs in Es; now injection Es as _ <-).
      unfold ka. rewrite key_vec_length. fold ka.
      destruct (Nat.leb_spec (length p) n); [|unfold n in *; lia]. cbn [rassert rbind].
      rewrite chain_take_resize. fold rows.
      rewrite (rmapM_ok_map _ (fun r => ev r alpha *m pr_g P)).
      - cbn [rbind]. fold coms. rewrite (lc_commit _ _ _ (afgho_g1_law P E HE rand_g2)).
        + reflexivity.
        + unfold ka. now rewrite key_vec_length, coms_length.
      - intros r Hr. rewrite Hks. apply kzg_commit_ok. pose proof rows_wf as H'.
        rewrite Forall_forall in H'. now apply H'.
    Qed.

    Section Point.
      Variables x y : K.
      Let px : list K := push_powers n f1 x.
      Let coeffs := map (resize m f0) rows.
      Let yc : list K := map (fun j => fbig n (fun i => fat px i *f fat (nth i coeffs []) j)) (seq 0 m).

      Lemma coeffs_nth i : i < n -> nth i coeffs [] = resize m f0 (nth i rows []).
      Proof.
        intros H. unfold coeffs. rewrite (nth_indep _ [] (resize m f0 [])) by (now rewrite map_length, rows_length).
        apply map_nth.
      Qed.
      Lemma coeffs_rect : Forall (fun r => length r = m) coeffs.
      Proof. apply Forall_forall. intros r Hr. apply in_map_iff in Hr as [r' [<- _]]. apply resize_length. Qed.

      Lemma ev_yc z : ev yc z = bipoly_evaluate p (x, z).
      Proof.
        unfold yc. rewrite ev_y_eval.
        - rewrite (bipoly_evaluate_pad p x z n) by auto. apply fbig_ext. intros i Hi.
          unfold px. rewrite push_powers_nth by auto. f_equal. rewrite coeffs_nth by auto. fold rows.
          apply wf_row_ev_resize. pose proof rows_wf as H'. rewrite Forall_forall in H'. apply H'.
          apply nth_In. now rewrite rows_length.
        - unfold coeffs. now rewrite map_length, rows_length.
        - apply coeffs_rect.
      Qed.

      Lemma yc_length : length yc = m.
      Proof. unfold yc. now rewrite map_length, seq_length. Qed.

      Lemma dot_coms : dot smul coms (powers n x : list (fmod K)) = ev yc alpha *m pr_g P.
      Proof.
        rewrite ev_yc, (bipoly_evaluate_pad p x alpha n) by auto. fold rows.
        rewrite dot_big by (now rewrite coms_length, powers_length).
        rewrite coms_length, <- big_fscale. apply big_ext. intros i Hi. unfold smul, at_.
        rewrite mscale_mul. f_equal.
        - unfold powers. change (@m0 K (fmod K)) with (@f0 K).
          rewrite (nth_indep _ f0 (fpow x 0)) by (now rewrite map_length, seq_length).
          now rewrite map_nth, seq_nth.
        - unfold coms.
          rewrite (nth_indep _ m0 ((fun r => ev r alpha *m pr_g P) [])) by (now rewrite map_length, rows_length).
          now rewrite (map_nth (fun r => ev r alpha *m pr_g P)).
      Qed.

      Lemma bpc_open_eq : exists o,
        bpc_open P E D fuel rand_g2 s p coms (x, y) =
          (do ip_proof <- tssm_prove (afgho_g1 P E rand_g2) (identity (R := R) (pG1 P)) (multiexp_ip (pG1 P))
                            D fuel (fst s) (coms, powers n x) (ka, (tt : unitmod K));
           Ok (mk_opening ip_proof (ev yc alpha *m pr_g P) o)) /\
        kzg_verify (trap_vsrs alpha beta) (ev yc alpha *m pr_g P) y (bipoly_evaluate p (x, y)) o = Ok true.
      Proof.
        pose proof (trap_bsrs_ck alpha beta xd yd) as Hck. fold s n ka in Hck.
        assert (Hks : snd s = kzg_powers alpha m) by reflexivity.
        destruct (kzg_open_ok alpha beta m (from_coefficients yc) y) as [o [Ho Hv]].
        { apply wf_row_stripped; [apply strip_stripped|unfold m; lia|].
          etransitivity; [apply strip_length|]. now rewrite yc_length. }
        unfold from_coefficients in Hv. rewrite !ev_strip, (ev_yc y) in Hv.
        exists o. split; [|exact Hv].
        unfold bpc_open. destruct s as [is ks] eqn:Es. cbn [fst snd] in *. rewrite Hck.
        assert (Hlk : length ka = n) by apply key_vec_length. rewrite !Hlk.
        destruct (Nat.leb_spec (length p) n); [|unfold n in *; lia]. cbn [rassert rbind].
        rewrite Hks, kzg_powers_length, chain_take_resize. fold rows. fold coeffs. fold px.
        rewrite y_eval_coefficients_ok.
        2: apply push_powers_length.
        2: unfold coeffs; now rewrite map_length, rows_length.
        2: apply coeffs_rect.
        cbn [rbind]. fold yc.
        rewrite <- (resize_self m f0 yc) at 1 by apply yc_length. rewrite kzg_msm.
        rewrite (resize_self m f0 yc) by apply yc_length. cbn [runwrap rbind].
        replace px with (powers n x : list K) by (unfold px, powers; now rewrite push_powers_map).
        match goal with |- rbind ?A _ = rbind ?B _ => change A with B; destruct B end; try reflexivity.
        cbn [rbind]. rewrite Ho. reflexivity.
      Qed.

      Let com : pGT P := dot (phi_g1 P) ka coms.

      Lemma bpc_after_tssm ip_proof o :
        kzg_verify (trap_vsrs alpha beta) (ev yc alpha *m pr_g P) y (bipoly_evaluate p (x, y)) o = Ok true ->
        tssm_verify (afgho_g1 P E' rand_g2') (identity (R := R) (pG1 P)) (multiexp_ip (pG1 P)) D fuel E'
          (trap_vsrs alpha beta) (tt : unitmod K)
          (mid com, idout (psi_id (tt : unitmod K) (dot smul coms (powers n x : list (fmod K))))) x ip_proof = Ok true ->
        bpc_verify P E' D fuel rand_g2' (trap_vsrs alpha beta) com (x, y) (bipoly_evaluate p (x, y))
          (mk_opening ip_proof (ev yc alpha *m pr_g P) o) = Ok true.
      Proof.
        intros Hk Ht. unfold bpc_verify. cbn [op_ip op_y_eval_comm op_kzg].
        rewrite dot_coms in Ht. unfold mid, idout, psi_id in Ht. rewrite Ht. cbn [rbind]. rewrite Hk. reflexivity.
      Qed.

      Lemma bpc_complete_outcome : digest16 D ->
        bpc_open P E D fuel rand_g2 s p coms (x, y) = Loop \/
        exists proof, bpc_open P E D fuel rand_g2 s p coms (x, y) = Ok proof /\
          bpc_verify P E' D fuel rand_g2' (trap_vsrs alpha beta) com (x, y) (bipoly_evaluate p (x, y)) proof = Ok true.
      Proof.
        intros HD. destruct bpc_open_eq as [o [Ho Hk]]. rewrite Ho.
        assert (Hc : length coms = 2 ^ S k) by (rewrite coms_length; exact Hx).
        assert (Hs : h_beta_powers (fst s) = map (fun i => fpow beta i *m pr_h P) (seq 0 (2 * 2 ^ S k - 1))).
        { rewrite <- Hx. unfold s, trap_bsrs. cbn [fst h_beta_powers]. f_equal. f_equal. lia. }
        destruct (tssm_complete_outcome D fuel E' mid idout (phi_g1 P) psi_id smul
          (afgho_g1 P E rand_g2) (afgho_g1 P E' rand_g2') (identity (R := R) (pG1 P)) (identity (R := R) (pG1 P))
          (multiexp_ip (pG1 P)) (multiexp_ip (pG1 P))
          (afgho_g1_law P E HE rand_g2) (identity_law _) (multiexp_ip_law _)
          (afgho_g1_law P E' HE' rand_g2') (identity_law _) (multiexp_ip_law _)
          alpha beta k coms x (tt : unitmod K) Hc (fst s) Hs HD) as [H|[pf [H V]]];
        rewrite <- Hx in H; fold n in H; fold ka in H; rewrite H.
        - now left.
        - right. eexists. split; [reflexivity|]. apply bpc_after_tssm; auto.
          rewrite <- Hx in V. exact V.
      Qed.

      Lemma bpc_complete_live :
        (forall prev (c1 c2 : com3 (mod_carrier (pGT P)) (mod_carrier (fmod K)) (identity_output (pG1 P))),
           exists c, gipa_challenge D fuel 0 prev c1 c2 = Ok c) ->
        (forall q, exists c : K, rand_challenge D fuel 0 q = Ok c) ->
        exists proof, bpc_open P E D fuel rand_g2 s p coms (x, y) = Ok proof /\
          bpc_verify P E' D fuel rand_g2' (trap_vsrs alpha beta) com (x, y) (bipoly_evaluate p (x, y)) proof = Ok true.
      Proof.
        intros L1 L2. destruct bpc_open_eq as [o [Ho Hk]]. rewrite Ho.
        assert (Hc : length coms = 2 ^ S k) by (rewrite coms_length; exact Hx).
        assert (Hs : h_beta_powers (fst s) = map (fun i => fpow beta i *m pr_h P) (seq 0 (2 * 2 ^ S k - 1))).
        { rewrite <- Hx. unfold s, trap_bsrs. cbn [fst h_beta_powers]. f_equal. f_equal. lia. }
        destruct (tssm_complete_live D fuel E' mid idout (phi_g1 P) psi_id smul
          (afgho_g1 P E rand_g2) (afgho_g1 P E' rand_g2') (identity (R := R) (pG1 P)) (identity (R := R) (pG1 P))
          (multiexp_ip (pG1 P)) (multiexp_ip (pG1 P))
          (afgho_g1_law P E HE rand_g2) (identity_law _) (multiexp_ip_law _)
          (afgho_g1_law P E' HE' rand_g2') (identity_law _) (multiexp_ip_law _)
          alpha beta k coms x (tt : unitmod K) Hc (fst s) Hs L1 L2) as [pf [H V]];
        rewrite <- Hx in H; fold n in H; fold ka in H; rewrite H.
        eexists. split; [reflexivity|]. apply bpc_after_tssm; auto.
        rewrite <- Hx in V. exact V.
      Qed.
    End Point.
  End Run.
End BpcFacts.

(** Inner products: C01-C04. *)
Require Import List Arith Lia Bool Field.
Import ListNotations.
Require Import Verif.Outcome Verif.Algebra Verif.Rust Verif.Spec Verif.ListFacts Verif.RustFacts
  Verif.InnerProducts Verif.Rng Verif.Sipp.

Section Pairing.
  Variable P : pairing.
  Add Field KfP : (f_theory (pK P)).

  Lemma pr_e_bilinear : bilinear (pr_e P).
  Proof. split; intros; [apply e_add_l|apply e_add_r|apply e_scale_l|apply e_scale_r]. Qed.

  Lemma chunk_size_pos E n : 1 <= threads E -> 0 < chunk_size E n.
  Proof.
    intros H. unfold chunk_size. destruct (Nat.leb_spec (threads E) n); [|lia].
    apply Nat.div_str_pos. lia.
  Qed.

  Lemma msum_concat {K} {M : module K} (l : list (list M)) : msum (concat l) = msum (map msum l).
  Proof. induction l; cbn [concat map]; auto. rewrite msum_app, IHl. reflexivity. Qed.

  (** Chunked multi-pairing: chunk, Miller loops, reduction, final exponentiation. *)
  Lemma chunked_pairing t size l r :
    0 < size -> length l = length r ->
    exists mls,
      rmapM (mml_chunk P) (combine (chunks_fuel (length l) size l) (chunks_fuel (length r) size r)) = Ok mls
      /\ fexp P (par_reduce (tfmul P) (tf1 P) (t (length mls)) mls) = Some (dot (pr_e P) l r).
  Proof.
    intros Hs Hl. rewrite <- Hl.
    destruct (chunks_pairs (pr_e P) (length l) size l r Hs Hl (le_n _)) as [H1 H2].
    set (cs := combine _ _) in *. clearbody cs.
    exists (map (fun c => mml P (fst c) (snd c)) cs). split.
    - apply rmapM_ok_map. intros c Hc. unfold mml_chunk.
      rewrite Forall_forall in H2. rewrite H2 by auto. now rewrite Nat.eqb_refl.
    - set (mls := map _ cs).
      assert (F : Forall2 (fun x v => fexp P x = Some v) mls
                    (map (fun c => dot (pr_e P) (fst c) (snd c)) cs)).
      { unfold mls. clear H1 mls. induction H2; cbn; constructor; auto.
        rewrite (fexp_mml P) by auto. f_equal. unfold dot. now rewrite zipw_map_combine. }
      pose proof (par_reduce_rel (fun x v => fexp P x = Some v) (tfmul P) madd (tf1 P) m0
                    (fexp_1 P) (fexp_mul P) (t (length mls)) _ _ F) as G.
      cbn beta in G. rewrite G, par_reduce_msum.
      unfold dot. rewrite <- H1, msum_concat, map_map. reflexivity.
  Qed.

  Lemma cfg_multi_pairing_spec E l r : 1 <= threads E -> length l = length r ->
    cfg_multi_pairing P E l r = Ok (Some (dot (pr_e P) l r)).
  Proof.
    intros HE Hl. unfold cfg_multi_pairing. rewrite !chunks_ok by now apply chunk_size_pos. cbn.
    destruct (chunked_pairing (shape E) (chunk_size E (length l)) l r) as [mls [-> H]]; auto.
    { now apply chunk_size_pos. }
    cbn. now rewrite H.
  Qed.

  Lemma pairing_ip_dot E l r : 1 <= threads E -> length l = length r ->
    pairing_ip P E l r = Ok (dot (pr_e P) l r).
  Proof.
    intros HE Hl. unfold pairing_ip. rewrite Hl, Nat.eqb_refl. cbn.
    now rewrite cfg_multi_pairing_spec.
  Qed.

  Lemma pairing_ip_err E l r : length l <> length r ->
    pairing_ip P E l r = Err (IPMessageLengthInvalid (length l) (length r)).
  Proof.
    intros H. unfold pairing_ip. destruct (Nat.eqb_spec (length l) (length r)); [contradiction|reflexivity].
  Qed.

  Lemma dot_pairing_sum l r : length l = length r -> dot (pr_e P) l r = pairing_sum P l r.
  Proof. apply dot_big. Qed.

  (** Sipp: product with coefficients *)
  Lemma sipp_product_dot E a b r : 1 <= threads E -> length a = length b -> length a <= length r ->
    product_of_pairings_with_coeffs P E a b r = Ok (dot (pr_e P) (zipw (fun a r => r *m a) a r) b).
  Proof.
    intros HE Hab Har. unfold product_of_pairings_with_coeffs.
    set (a' := zipw _ a r).
    assert (Ha' : length a' = length b) by (unfold a'; rewrite zipw_length; lia).
    rewrite !chunks_ok by now apply chunk_size_pos. cbn.
    destruct (chunked_pairing (shape E) (chunk_size E (length a')) a' b) as [mls [-> H]]; auto.
    { now apply chunk_size_pos. }
    cbn. now rewrite H.
  Qed.

  Lemma zipw_scale_1 {K} {M : module K} (a : list M) :
    zipw (fun a r => r *m a) a (repeat f1 (length a)) = a.
  Proof. induction a; cbn; auto. now rewrite IHa, mscale_1. Qed.

  Lemma product_of_pairings_dot E a b : 1 <= threads E -> length a = length b ->
    product_of_pairings P E a b = Ok (dot (pr_e P) a b).
  Proof.
    intros. unfold product_of_pairings. rewrite sipp_product_dot; rewrite ?repeat_length; auto.
    now rewrite zipw_scale_1.
  Qed.
End Pairing.

Section Msm.
  Context {K : field}.
  Add Field KfM : (f_theory K).

  Definition smul {M : module K} (b : M) (s : fmod K) : M := (s : K) *m b.

  Lemma smul_bilinear {M : module K} : bilinear (@smul M).
  Proof.
    split; unfold smul; intros; cbn.
    - apply mscale_add_r.
    - apply mscale_add_l.
    - rewrite <- !mscale_mul. f_equal. ring.
    - apply mscale_mul.
  Qed.

  Lemma msm_dot {M : module K} (b : list M) (s : list K) : length b = length s ->
    msm b s = Some (dot smul b (s : list (fmod K))).
  Proof. intros H. unfold msm. rewrite H, Nat.eqb_refl. reflexivity. Qed.

  Lemma multiexp_ip_dot {M : module K} (b : list M) (s : list K) : length b = length s ->
    multiexp_ip M b s = Ok (dot smul b (s : list (fmod K))).
  Proof.
    intros H. unfold multiexp_ip. rewrite msm_dot by auto. rewrite H, Nat.eqb_refl. reflexivity.
  Qed.

  Lemma multiexp_ip_err {M : module K} (b : list M) (s : list K) : length b <> length s ->
    multiexp_ip M b s = Err (IPMessageLengthInvalid (length b) (length s)).
  Proof.
    intros H. unfold multiexp_ip. destruct (Nat.eqb_spec (length b) (length s)); [contradiction|reflexivity].
  Qed.

  Lemma dot_msm_sum {M : module K} (b : list M) (s : list K) : length b = length s ->
    dot smul b (s : list (fmod K)) = msm_sum b s.
  Proof. intros H. now rewrite (dot_big smul b (s : list (fmod K)) H). Qed.

  Definition fmul' (l r : fmod K) : fmod K := (l : K) *f r.

  Lemma fmul_bilinear : bilinear fmul'.
  Proof. split; unfold fmul'; cbn; intros; ring. Qed.

  Lemma scalar_ip_dot E (l r : list K) : length l = length r ->
    scalar_ip E l r = Ok (dot fmul' (l : list (fmod K)) (r : list (fmod K))).
  Proof.
    intros H. unfold scalar_ip. rewrite H, Nat.eqb_refl. cbn [negb].
    f_equal. apply (par_reduce_msum (M := fmod K)).
  Qed.

  Lemma scalar_ip_err E (l r : list K) : length l <> length r ->
    scalar_ip E l r = Err (IPMessageLengthInvalid (length l) (length r)).
  Proof.
    intros H. unfold scalar_ip. destruct (Nat.eqb_spec (length l) (length r)); [contradiction|reflexivity].
  Qed.

  Lemma dot_scalar_sum (l r : list K) : length l = length r ->
    dot fmul' (l : list (fmod K)) (r : list (fmod K)) = scalar_sum l r.
  Proof.
    intros H. rewrite (dot_big fmul' l r H). unfold scalar_sum. now rewrite fbig_big.
  Qed.
End Msm.

(** vadd / vscale of the specification *)
Lemma vadd_zipw {K} {M : module K} (l r : list M) : length l = length r -> vadd l r = zipw madd l r.
Proof.
  intros H. unfold vadd. apply (nth_ext_eq _ _ m0).
  - rewrite map_length, seq_length, zipw_length_eq; auto.
  - intros i Hi. rewrite map_length, seq_length in Hi.
    rewrite (nth_indep _ m0 (at_ l 0 +m at_ r 0)) by (rewrite map_length, seq_length; auto).
    rewrite (map_nth (fun i => at_ l i +m at_ r i)), seq_nth by auto.
    cbn. unfold at_. rewrite (zipw_nth madd l r i m0 m0 m0); auto; lia.
Qed.

Lemma vscale_map {K} {M : module K} x (l : list M) : vscale x l = map (mscale x) l.
Proof.
  unfold vscale. apply (nth_ext_eq _ _ m0).
  - now rewrite !map_length, seq_length.
  - intros i Hi. rewrite map_length, seq_length in Hi.
    rewrite (nth_indep _ m0 (x *m at_ l 0)) by (rewrite map_length, seq_length; auto).
    rewrite (map_nth (fun i => x *m at_ l i)), seq_nth by auto.
    rewrite (nth_indep _ m0 (x *m (m0 : M))) by (rewrite map_length; auto).
    rewrite map_nth. reflexivity.
Qed.

Lemma vadd_length {K} {M : module K} (l r : list M) : length (vadd l r) = length l.
Proof. unfold vadd. now rewrite map_length, seq_length. Qed.

Lemma vscale_length {K} {M : module K} x (l : list M) : length (vscale x l) = length l.
Proof. unfold vscale. now rewrite map_length, seq_length. Qed.

(** dot products in terms of vadd / vscale *)
Section DotSpec.
  Context {K : field} {A B C : module K} (f : A -> B -> C) (Hf : bilinear f).

  Lemma dot_vadd_l l l' r : length l = length l' -> length l = length r ->
    dot f (vadd l l') r = dot f l r +m dot f l' r.
  Proof. intros. rewrite vadd_zipw by auto. now apply dot_add_l. Qed.
  Lemma dot_vadd_r l r r' : length r = length r' -> length l = length r ->
    dot f l (vadd r r') = dot f l r +m dot f l r'.
  Proof. intros. rewrite vadd_zipw by auto. now apply dot_add_r. Qed.
  Lemma dot_vscale_l x l r : dot f (vscale x l) r = x *m dot f l r.
  Proof. rewrite vscale_map. now apply dot_scale_l. Qed.
  Lemma dot_vscale_r x l r : dot f l (vscale x r) = x *m dot f l r.
  Proof. rewrite vscale_map. now apply dot_scale_r. Qed.
End DotSpec.

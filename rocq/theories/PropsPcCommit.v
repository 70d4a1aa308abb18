(** Property C78: the outcome of the commitment functions of the polynomial commitments for every argument. *)
Require Import List Arith NArith ZArith Lia Bool Field.
Import ListNotations.
Require Import Verif.Outcome Verif.Algebra Verif.Zp Verif.Rust Verif.InnerProducts Verif.Commitments
  Verif.Gipa Verif.Poly Verif.Tipa Verif.Ssm Verif.Floats Verif.PolyCommit Verif.Transparent Verif.Spec Verif.ListFacts
  Verif.RustFacts Verif.InnerProductFacts Verif.CommitFacts Verif.GipaFacts
  Verif.PolyFacts Verif.KeyFacts Verif.PcFacts Verif.UpcFacts Verif.TransparentFacts
  Verif.PropsBase Verif.PropsGipa Verif.PropsTipa Verif.PropsPoly.

Lemma rmapM_panic {A B} (f : A -> res B) (l : list A) x : In x l -> f x = Panic ->
  (forall x, In x l -> f x = Panic \/ exists y, f x = Ok y) -> rmapM f l = Panic.
Proof.
  induction l as [|z l IH]; intros Hin Hx Hall; [destruct Hin|]. cbn [rmapM].
  destruct (Hall z (or_introl eq_refl)) as [->|[y Hy]]; [reflexivity|]. rewrite Hy. cbn [rbind].
  destruct Hin as [->|Hin]; [congruence|]. rewrite IH; auto. intros w Hw. apply Hall. now right.
Qed.

Section C78.
  Context {R : Type} {P : pairing}.
  Notation K := (pK P).
  Add Field KfC78 : (f_theory (pK P)).
  Variables (E : penv) (HE : 1 <= threads E).
  Variables (rand : sampler R (pK P)) (r1 : sampler R (pG1 P)) (r2 : sampler R (pG2 P)).

  Lemma wf_row_dec m (row : list K) : wf_row m row \/ ~ wf_row m row.
  Proof using.
    unfold wf_row. destruct (poly_degree row) as [d| | |] eqn:Ed; try (right; intros [d [H _]]; discriminate).
    destruct (le_dec (d + 1) m) as [Hd|Hd]; [left; eauto|]. right. intros [d' [H H']]. injection H as ->. auto.
  Qed.

  Lemma in_resize {A} (l : list A) n d x : In x l -> length l <= n -> In x (resize n d l).
  Proof using. intros H Hl. unfold resize. rewrite firstn_all2 by exact Hl. apply in_or_app. now left. Qed.

  Lemma not_all {A} (Q : A -> Prop) (l : list A) : (forall x, Q x \/ ~ Q x) -> ~ Forall Q l -> exists x, In x l /\ ~ Q x.
  Proof using.
    intros Hdec. induction l as [|x l IH]; intros H; [exfalso; apply H; constructor|]. destruct (Hdec x) as [Hx|Hx]; [|exists x; cbn; auto].
    destruct IH as [y [Hy Hn]]; [intros Hl; apply H; now constructor|]. exists y. cbn. auto.
  Qed.

  (** mod.rs: a polynomial with at most xd + 1 rows, each of degree at most yd and normalised, is committed to;
      anything else panics. *)
  Theorem C78_bivariate_commit (rng : R) xd yd s rng' (p : bipoly K) :
    bpc_setup P rand rng xd yd = Ok (s, rng') ->
    let alpha := fst (rand rng) in
    let beta := fst (rand (snd (rand rng))) in
    let fits := length p <= xd + 1 /\ Forall (degree_below (yd + 1)) p in
    (fits -> exists coms, length coms = xd + 1 /\ (forall i, i < xd + 1 -> at_ coms i = poly_at (nth i p []) alpha *m pr_g P) /\
       bpc_commit P E r2 s p =
         Ok (fbig (xd + 1) (fun i => poly_at (nth i p []) alpha *f fpow beta (2 * i)) *m pr_e P (pr_g P) (pr_h P), coms)) /\
    (~ fits -> bpc_commit P E r2 s p = Panic).
  Proof using HE.
    intros Hs. destruct (bpc_setup_ok (P := P) rand rng xd yd) as [rng2 Hs2]. rewrite Hs in Hs2. injection Hs2 as -> ->.
    cbv zeta. set (alpha := fst (rand rng)). set (beta := fst (rand (snd (rand rng)))). split.
    - intros [Hl Hr]. apply degree_below_wfs in Hr. rewrite (bpc_commit_ok E HE r2 alpha beta xd yd p Hl Hr).
      set (coms := map _ _). assert (Hcl : length coms = xd + 1) by (unfold coms; rewrite map_length; apply resize_length).
      assert (Hat : forall i, i < xd + 1 -> at_ coms i = poly_at (nth i p []) alpha *m pr_g P).
      { intros i Hi. unfold at_, coms. rewrite (nth_indep _ m0 (poly_evaluate [] alpha *m pr_g P)) by (rewrite map_length, resize_length; exact Hi).
        rewrite (map_nth (fun row => poly_evaluate row alpha *m pr_g P)). rewrite ev_poly_at, resize_nth by exact Hi. reflexivity. }
      exists coms. split; [exact Hcl|]. split; [exact Hat|]. f_equal. f_equal.
      rewrite dot_big by (rewrite key_vec_length; symmetry; exact Hcl). rewrite key_vec_length. rewrite <- big_fscale. apply big_ext. intros i Hi.
      unfold phi_g1. rewrite Hat by exact Hi. unfold key_vec. rewrite (at_map_seq (fun i => fpow (beta *f beta *f f1) i *m pr_h P)) by exact Hi.
      rewrite e_scale_l, e_scale_r, <- mscale_mul. f_equal. rewrite fpow_mul. cbn [fpow].
      replace (beta *f beta *f f1) with (beta *f (beta *f f1)) by ring. ring.
    - intros Hn. unfold bpc_commit. pose proof (trap_bsrs_ck alpha beta xd yd) as Hck.
      destruct (trap_bsrs alpha beta xd yd) as [is ks] eqn:Es. cbn [fst] in Hck. rewrite Hck, key_vec_length.
      assert (Hks : ks = kzg_powers alpha (yd + 1)) by (unfold trap_bsrs in Es; now injection Es as _ <-).
      destruct (Nat.leb_spec (length p) (xd + 1)) as [Hl|]; [|reflexivity]. cbn [rassert rbind]. rewrite chain_take_resize.
      assert (Hx : exists row, In row p /\ ~ wf_row (yd + 1) row).
      { apply not_all; [apply wf_row_dec|]. intros Hw. apply Hn. split; [exact Hl|]. eapply Forall_impl; [|exact Hw]. intros r. apply degree_below_wf. }
      destruct Hx as [row [Hin Hbad]].
      rewrite (rmapM_panic _ _ row); [reflexivity|now apply in_resize|rewrite Hks; now apply kzg_commit_panic|].
      intros w _. destruct (wf_row_dec (yd + 1) w) as [Hw|Hw]; rewrite Hks; [right|left; now apply kzg_commit_panic].
      eexists. now apply kzg_commit_ok.
  Qed.

  (** KZG::open panics on the same polynomials as KZG::commit. *)
  Theorem C78_kzg_open (rng : R) d powers v rng' (p : list K) z :
    kzg_setup rand rng d = Ok (powers, v, rng') ->
    (degree_below (d + 1) p -> exists proof, kzg_open powers p z = Ok proof /\
       poly_at p (fst (rand rng)) *m pr_g P -m poly_at p z *m pr_g P = (fst (rand rng) -f z) *m proof) /\
    (~ degree_below (d + 1) p -> kzg_open powers p z = Panic).
  Proof using.
    clear HE. intros Hs. destruct (kzg_setup_ok (P := P) rand rng d) as [rng2 Hs2]. rewrite Hs in Hs2. injection Hs2 as -> -> ->.
    change (map (fun i => fpow (fst (rand rng)) i *m pr_g P) (seq 0 (d + 1))) with (kzg_powers (P := P) (fst (rand rng)) (d + 1)).
    split; intros Hp.
    - apply degree_below_wf in Hp. destruct (kzg_open_ok (fst (rand rng)) (fst (rand (snd (rand rng)))) (d + 1) p z Hp) as [o [Ho Hv]].
      exists o. split; [exact Ho|]. apply kzg_verify_iff in Hv. rewrite !ev_poly_at in Hv. exact Hv.
    - assert (Hw : ~ wf_row (d + 1) p) by (intros H; apply Hp; now apply degree_below_wf).
      pose proof (kzg_commit_panic (fst (rand rng)) (d + 1) p Hw) as Hc. unfold kzg_commit in Hc. unfold kzg_open.
      destruct (poly_degree p) as [dg| | |] eqn:Ed; try (cbn [rbind] in *; congruence). cbn [rbind] in *. rewrite kzg_powers_length in *.
      destruct (Nat.leb_spec (dg + 1) (d + 1)) as [Hd|]; [|reflexivity]. exfalso. apply Hw. exists dg. auto.
  Qed.

  (** transparent.rs: any polynomial whose rows and number of rows do not exceed the keys is committed to (leading zeros
      do not matter); anything else panics. *)
  Theorem C78_transparent_commit (ck1 : list (pG1 P)) (ck2 : list (pG2 P)) (p : bipoly K) :
    let fits := length p <= length ck2 /\ Forall (fun row => length row <= length ck1) p in
    (fits -> exists coms, length coms = length ck2 /\
       (forall i, i < length ck2 -> at_ coms i = big (length ck1) (fun j => fat (nth i p []) j *m at_ ck1 j)) /\
       tbpc_commit P E r1 r2 (ck1, ck2) p = Ok (big (length ck2) (fun i => pr_e P (at_ coms i) (at_ ck2 i)), coms)) /\
    (~ fits -> tbpc_commit P E r1 r2 (ck1, ck2) p = Panic).
  Proof using HE.
    cbv zeta. split.
    - intros [Hl Hr]. rewrite (tbpc_commit_ok E HE r1 r2 ck1 ck2 p Hl Hr). set (coms := map _ _).
      assert (Hcl : length coms = length ck2) by (unfold coms; rewrite map_length; apply resize_length).
      exists coms. split; [exact Hcl|]. split.
      + intros i Hi. change (at_ coms i) with (nth i coms m0). unfold coms. rewrite (nth_indep _ m0 (dot smul ck1 (resize (length ck1) f0 [] : list (fmod K)))) by (rewrite map_length, resize_length; exact Hi).
        rewrite (map_nth (fun r => dot smul ck1 (resize (length ck1) f0 r : list (fmod K)))), resize_nth by exact Hi.
        etransitivity; [apply (dot_big smul ck1); symmetry; apply resize_length|]. apply big_ext. intros j Hj. unfold smul. f_equal.
        unfold at_. cbn [m0 fmod]. apply (resize_nth (length ck1) f0). exact Hj.
      + f_equal. f_equal. apply (dot_big (phi_g1 P)). now symmetry.
    - intros Hn. unfold tbpc_commit. destruct (Nat.leb_spec (length p) (length ck2)) as [Hl|]; [|reflexivity]. cbn [rassert rbind]. rewrite chain_take_resize.
      destruct (not_all (fun row : list K => length row <= length ck1) p) as [row [Hin Hbad]].
      { intros x. destruct (le_dec (length x) (length ck1)); auto. }
      { intros Hf. apply Hn. auto. }
      rewrite (rmapM_panic _ _ row); [reflexivity|now apply in_resize| |].
      + unfold t_row_commit. destruct (Nat.leb_spec (length row) (length ck1)); [lia|reflexivity].
      + intros w _. unfold t_row_commit. destruct (Nat.leb_spec (length w) (length ck1)); [right|left; reflexivity]. cbn [rassert rbind].
        rewrite (lc_commit _ _ _ (pedersen_law (pG1 P) r1)) by (symmetry; apply resize_length). eauto.
  Qed.

  (** The univariate functions commit to every polynomial (coefficients beyond the capacity are dropped: C39). *)
  Theorem C78_univariate_commit_total (rng : R) d s rng' (p : list K) :
    upc_setup P rand rng d = Ok (s, rng') -> exists com coms, upc_commit P E r2 s p = Ok (com, coms).
  Proof using HE.
    intros Hs. unfold upc_setup in Hs. apply rbind_ok in Hs as [[xd yd] [Hdeg Hs]].
    destruct (bpc_setup_ok (P := P) rand rng xd yd) as [rng2 Hs2]. rewrite Hs in Hs2. injection Hs2 as -> ->.
    destruct (upc_commit_total E HE r2 (fst (rand rng)) (fst (rand (snd (rand rng)))) xd yd p) as [[com coms] H]. eauto.
  Qed.
  Theorem C78_transparent_univariate_commit (ck1 : list (pG1 P)) (ck2 : list (pG2 P)) (p : list K) :
    (0 < length ck1 /\ 0 < length ck2 -> exists com coms, tupc_commit P E r1 r2 (ck1, ck2) p = Ok (com, coms)) /\
    (~ (0 < length ck1 /\ 0 < length ck2) -> tupc_commit P E r1 r2 (ck1, ck2) p = Panic).
  Proof using HE.
    unfold tupc_commit, parse_degrees_ck. cbn [fst snd]. split.
    - intros [H1 H2]. destruct (Nat.ltb_spec 0 (length ck2)); [|lia]. destruct (Nat.ltb_spec 0 (length ck1)); [|lia]. cbn [rassert rbind].
      destruct (bivariate_form_fit (length ck2 - 1) (length ck1 - 1) p) as [bp [Hbp [Hl [Hr _]]]]. rewrite Hbp. cbn [rbind].
      rewrite (tbpc_commit_ok E HE r1 r2 ck1 ck2 bp); [eauto| |].
      + lia.
      + eapply Forall_impl; [|exact Hr]. cbn. intros; lia.
    - intros Hn. destruct (Nat.ltb_spec 0 (length ck2)); [|reflexivity]. destruct (Nat.ltb_spec 0 (length ck1)); [|reflexivity]. exfalso. apply Hn. lia.
  Qed.
End C78.
Print Assumptions C78_bivariate_commit.
Print Assumptions C78_kzg_open.
Print Assumptions C78_transparent_commit.
Print Assumptions C78_univariate_commit_total.
Print Assumptions C78_transparent_univariate_commit.

(** Rows of degree 1 for yd = 1: a row with an explicit leading zero panics in the scheme with SRS and not in the transparent one. *)
Example C78_example :
  (do (s, _) <- bpc_setup ZPair ex_scalars 5%Z 1 1; do (c, _) <- bpc_commit ZPair ex_env ex_rand s [zl [1; 2]; zl [3]]%Z; Ok c) = Ok (zq (11 + 3 * 36)) /\
  (do (s, _) <- bpc_setup ZPair ex_scalars 5%Z 1 1; do (c, _) <- bpc_commit ZPair ex_env ex_rand s [zl [1; 2]; zl [3; 0]]%Z; Ok c) = Panic /\
  (do (s, _) <- bpc_setup ZPair ex_scalars 5%Z 1 1; do (c, _) <- bpc_commit ZPair ex_env ex_rand s [zl [1; 2]; zl [3; 1; 1]]%Z; Ok c) = Panic /\
  (do (s, _) <- bpc_setup ZPair ex_scalars 5%Z 1 1; do (c, _) <- bpc_commit ZPair ex_env ex_rand s [zl [1]; zl [3]; zl [1]]%Z; Ok c) = Panic /\
  (do (c, _) <- tbpc_commit ZPair ex_env ex_rand ex_rand (zl [5; 6], zl [7; 8])%Z [zl [1; 2]; zl [3; 0]]%Z; Ok c) = Ok (zq (17 * 7 + 15 * 8)) /\
  (do (c, _) <- tbpc_commit ZPair ex_env ex_rand ex_rand (zl [5; 6], zl [7; 8])%Z [zl [1; 2]; zl [3; 0; 0]]%Z; Ok c) = Panic.
Proof. vm_compute. repeat split; reflexivity. Qed.

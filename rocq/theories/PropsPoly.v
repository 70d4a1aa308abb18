(** Properties C32 - C40: polynomial commitments. *)
Require Import List Arith NArith ZArith Lia Bool Field.
Import ListNotations.
Require Import Verif.Outcome Verif.Algebra Verif.Zp Verif.Rust Verif.InnerProducts Verif.Commitments
  Verif.Gipa Verif.Poly Verif.Tipa Verif.Ssm Verif.Floats Verif.PolyCommit Verif.Transparent Verif.Spec
  Verif.ListFacts Verif.RustFacts Verif.InnerProductFacts Verif.CommitFacts Verif.GipaFacts Verif.GipaComplete
  Verif.GipaTop Verif.SerFacts Verif.PolyFacts Verif.KeyFacts Verif.TipaFacts Verif.SsmFacts Verif.FloatFacts
  Verif.PcFacts Verif.PcDegrees Verif.UpcFacts Verif.TransparentFacts Verif.PropsBase Verif.PropsGipa
  Verif.PropsTipa Verif.PropsSsm.

(** ** Specification vocabulary *)
Section PolySpec.
  Context {K : field}.
  Add Field KfPSpec : (f_theory K).

  (** [p] represents a polynomial of degree < m: all its coefficients are zero (e.g. the empty vector), or
      it has at most m coefficients and the leading one is not zero (the invariant of DensePolynomial). *)
  Definition degree_below (m : nat) (p : list K) : Prop :=
    1 <= m /\ ((forall i, fat p i = f0) \/ (length p <= m /\ fat p (length p - 1) <> f0)).

  (** sum_i sum_j c_ij x^i y^j *)
  Definition bipoly_at (p : list (list K)) (x y : K) : K :=
    fbig (length p) (fun i => fbig (length (nth i p [])) (fun j =>
      fat (nth i p []) j *f (fpow x i *f fpow y j))).

  Lemma is_zero_fat (p : list K) : poly_is_zero p = true <-> forall i, fat p i = f0.
  Proof.
    unfold poly_is_zero, fat. rewrite forallb_forall. split.
    - intros H i. destruct (Nat.lt_ge_cases i (length p)) as [Hi|Hi].
      + apply feqb_spec. apply H. now apply nth_In.
      + now apply nth_overflow.
    - intros H x Hx. apply feqb_spec. destruct (In_nth _ _ f0 Hx) as [i [_ <-]]. apply H.
  Qed.

  Lemma last_opt_fat (p : list K) : p <> [] -> last_opt p = Some (fat p (length p - 1)).
  Proof.
    intros H. destruct (exists_last H) as [l [x ->]]. unfold fat.
    rewrite last_opt_app, app_length. cbn [length].
    replace (length l + 1 - 1) with (length l) by lia. rewrite app_nth2, Nat.sub_diag by lia. reflexivity.
  Qed.

  Lemma degree_below_wf m (p : list K) : degree_below m p <-> wf_row m p.
  Proof.
    unfold degree_below, wf_row, poly_degree. destruct (poly_is_zero p) eqn:Ez.
    - pose proof (proj1 (is_zero_fat p) Ez) as Hz. split.
      + intros [Hm _]. exists 0. split; [reflexivity|lia].
      + intros [d [[= <-] Hd]]. split; [lia|]. now left.
    - assert (Hne : p <> []) by (intros ->; cbn in Ez; discriminate).
      assert (Hnz : ~ forall i, fat p i = f0) by (rewrite <- is_zero_fat; congruence).
      assert (Hl : length p <> 0) by (destruct p; [congruence|discriminate]).
      rewrite last_opt_fat by auto. destruct (feqb (fat p (length p - 1)) f0) eqn:Ef; cbn [negb rassert rbind].
      + apply feqb_spec in Ef. split.
        * intros [_ [H|[_ H]]]; contradiction.
        * intros [d [[=] _]].
      + assert (fat p (length p - 1) <> f0) by (intros H; apply feqb_spec in H; congruence). split.
        * intros [Hm [H'|[H' _]]]; [contradiction|]. eexists. split; [reflexivity|]. lia.
        * intros [d [[= <-] Hd]]. split; [lia|]. right. split; [lia|auto].
  Qed.

  Lemma degree_below_wfs m (p : list (list K)) : Forall (degree_below m) p -> Forall (wf_row m) p.
  Proof. apply Forall_impl. intros r. apply degree_below_wf. Qed.

  (** ** C35 *)
  Theorem C35_bivariate_evaluation (p : bipoly K) x y : bipoly_evaluate p (x, y) = bipoly_at p x y.
  Proof.
    rewrite bipoly_evaluate_rows. unfold bipoly_at. apply fbig_ext. intros i Hi.
    rewrite ev_poly_at. unfold poly_at. rewrite <- fbig_scale. apply fbig_ext. intros j Hj. ring.
  Qed.

  (** ** C36 *)
  Lemma nth_firstn_lt' {A} (l : list A) n i d : i < n -> nth i (firstn n l) d = nth i l d.
  Proof. revert l i. induction n; intros [|x l] [|i] H; try lia; cbn; auto. apply IHn. lia. Qed.
  Lemma nth_skipn' {A} (l : list A) n i d : nth i (skipn n l) d = nth (n + i) l d.
  Proof. revert l. induction n; intros [|x l]; cbn; auto. destruct i; auto. Qed.

  Lemma fat_strip (l : list K) j : fat (strip l) j = fat l j.
  Proof.
    revert j. induction l as [|x l IH]; intros j; [reflexivity|]. cbn [strip].
    destruct (strip l) as [|y s] eqn:E.
    - assert (Hl : forall j, fat l j = f0) by (intros i; rewrite <- IH; unfold fat; destruct i; reflexivity).
      destruct (feqb x f0) eqn:Ex.
      + apply feqb_spec in Ex as ->. unfold fat at 1. destruct j; [reflexivity|]. cbn [nth].
        symmetry. apply (Hl j).
      + destruct j; [reflexivity|]. unfold fat. cbn [nth]. transitivity (@f0 K); [destruct j; reflexivity|].
        symmetry. apply (Hl j).
    - destruct j; [reflexivity|]. apply (IH j).
  Qed.

  (** the coefficient of x^i y^j in the bivariate form is coefficient i (yd + 1) + j *)
  Lemma take_rows_fat rows cols : forall (p : list K) rs, length p = rows * cols -> take_rows rows cols p = Ok rs ->
    length rs = rows /\ forall i j, i < rows -> j < cols -> fat (nth i rs []) j = fat p (i * cols + j).
  Proof.
    induction rows; intros p rs Hl H; cbn [take_rows] in H.
    - injection H as <-. split; [reflexivity|]. intros; lia.
    - rewrite take_row_ok in H by lia. cbn [rbind] in H.
      destruct (take_rows rows cols (skipn cols p)) as [rest| | |] eqn:Er; cbn [rbind] in H; try discriminate.
      apply Ok_inj in H. subst rs.
      apply IHrows in Er as [Hr Hf]; [|rewrite skipn_length; lia]. split; [cbn; lia|].
      intros [|i] j Hi Hj; cbn [nth].
      + unfold from_coefficients. rewrite fat_strip. unfold fat. cbn. apply nth_firstn_lt'. auto.
      + rewrite Hf by lia. unfold fat. rewrite nth_skipn'. f_equal. lia.
  Qed.

  Lemma bivariate_form_fat xd yd (p : list K) bp : bivariate_form (xd, yd) p = Ok bp ->
    forall i j, i < xd + 1 -> j < yd + 1 -> fat (nth i bp []) j = fat p (i * (yd + 1) + j).
  Proof.
    unfold bivariate_form. rewrite chain_take_resize. intros H i j Hi Hj.
    apply take_rows_fat in H as [_ H]; [|apply resize_length]. rewrite H by auto.
    unfold fat. apply resize_nth. nia.
  Qed.

  Theorem C36_embedding xd yd (p : list K) : length p <= (xd + 1) * (yd + 1) ->
    exists bp, bivariate_form (xd, yd) p = Ok bp /\
      length bp = xd + 1 /\ Forall (degree_below (yd + 1)) bp /\
      (forall i j, i < xd + 1 -> j < yd + 1 -> fat (nth i bp []) j = fat p (i * (yd + 1) + j)) /\
      forall z, bipoly_evaluate bp (fpow z (yd + 1), z) = poly_at p z.
  Proof.
    intros H. destruct (bivariate_form_ok xd yd p) as [bp [H1 [H2 [H3 H4]]]]. exists bp.
    split; [exact H1|]. split; [exact H2|]. split; [|split].
    - eapply Forall_impl; [|exact H3]. intros r [Hs Hl]. apply degree_below_wf. apply wf_row_stripped; auto. lia.
    - eapply bivariate_form_fat; eauto.
    - intros z. rewrite H4, firstn_all2 by lia. apply ev_poly_at.
  Qed.

  (** longer polynomials are cut off *)
  Theorem C36_overlong xd yd (p : list K) : (xd + 1) * (yd + 1) < length p ->
    bivariate_form (xd, yd) p = bivariate_form (xd, yd) (firstn ((xd + 1) * (yd + 1)) p).
  Proof. intros _. symmetry. apply bivariate_form_firstn. Qed.
End PolySpec.
Print Assumptions C35_bivariate_evaluation.
Print Assumptions C36_embedding.
Print Assumptions C36_overlong.

(** (3 + 4y) + (5 + 6y) x at (2, 10) *)
Example C35_example : bipoly_evaluate (K := ZP) [zl [3; 4]; zl [5; 6]]%Z (zq 2, zq 10) = zq 173.
Proof. vm_compute. reflexivity. Qed.
(** 1 + 2z + 3z^2 + 4z^3 + 5z^4 in rows of two, the last row [5] stripped *)
Example C36_example :
  bivariate_form (K := ZP) (2, 1) (zl [1; 2; 3; 4; 5]%Z) = Ok [zl [1; 2]; zl [3; 4]; zl [5]]%Z /\
  bipoly_evaluate (K := ZP) [zl [1; 2]; zl [3; 4]; zl [5]]%Z (zq 9, zq 3) = zq 547 /\
  poly_at (K := ZP) (zl [1; 2; 3; 4; 5]%Z) (zq 3) = zq 547.
Proof. vm_compute. repeat split; reflexivity. Qed.

(** ** C32, C33 *)
Section C32.
  Context {R : Type} {P : pairing}.
  Notation K := (pK P).
  Variable rand : sampler R (pK P).

  Theorem C32_kzg_complete (rng : R) (D : nat) :
    exists powers v rng', kzg_setup rand rng D = Ok (powers, v, rng') /\
      forall p z, degree_below (D + 1) p ->
      exists proof,
        kzg_commit powers p = Ok (poly_at p (fst (rand rng)) *m pr_g P) /\
        kzg_open powers p z = Ok proof /\
        kzg_verify v (poly_at p (fst (rand rng)) *m pr_g P) z (poly_at p z) proof = Ok true.
  Proof.
    destruct (kzg_setup_ok rand rng D) as [rng' Hs]. eexists _, _, rng'. split; [exact Hs|].
    intros p z Hp. apply degree_below_wf in Hp.
    destruct (kzg_open_ok (fst (rand rng)) (fst (rand (snd (rand rng)))) (D + 1) p z Hp) as [o [Ho Hv]].
    exists o. rewrite <- !ev_poly_at. split; [|split; assumption]. now apply kzg_commit_ok.
  Qed.

  (** anything else makes commit panic *)
  Theorem C32_too_large (rng : R) (D : nat) powers v rng' p :
    kzg_setup rand rng D = Ok (powers, v, rng') -> ~ degree_below (D + 1) p -> kzg_commit powers p = Panic.
  Proof.
    destruct (kzg_setup_ok rand rng D) as [rng'' ->]. intros H Hp. apply Ok_inj in H. injection H as <- _ _.
    apply (kzg_commit_panic (fst (rand rng)) (D + 1) p). rewrite <- degree_below_wf. auto.
  Qed.

  Theorem C33_acceptance (rng : R) (D : nat) powers v rng' com z e proof :
    kzg_setup rand rng D = Ok (powers, v, rng') ->
    kzg_verify v com z e proof = Ok true <->
    com -m (e *m pr_g P) = (fst (rand rng) -f z) *m proof.
  Proof.
    destruct (kzg_setup_ok rand rng D) as [rng'' ->]. intros H. apply Ok_inj in H. injection H as _ <- _.
    apply kzg_verify_iff.
  Qed.

  Theorem C33_two_openings (rng : R) (D : nat) powers v rng' com z e e' proof proof' :
    kzg_setup rand rng D = Ok (powers, v, rng') -> e <> e' ->
    kzg_verify v com z e proof = Ok true -> kzg_verify v com z e' proof' = Ok true ->
    (fst (rand rng) -f z) *m (finv (e' -f e) *m (proof -m proof')) = pr_g P.
  Proof.
    destruct (kzg_setup_ok rand rng D) as [rng'' ->]. intros H Hne. apply Ok_inj in H. injection H as _ <- _.
    now apply kzg_binding.
  Qed.

  (** the evaluation is determined by commitment, point and proof *)
  Theorem C33_one_evaluation_per_proof (rng : R) (D : nat) powers v rng' com z e e' proof :
    kzg_setup rand rng D = Ok (powers, v, rng') -> pr_g P <> m0 ->
    kzg_verify v com z e proof = Ok true -> kzg_verify v com z e' proof = Ok true -> e = e'.
  Proof.
    intros Hs Hg H1 H2. destruct (f_eq_dec _ e e') as [|Hne]; auto. exfalso.
    pose proof (C33_two_openings _ _ _ _ _ _ _ _ _ _ _ Hs Hne H1 H2) as H. apply Hg. rewrite <- H.
    rewrite (proj2 (msub_eq0 proof proof)), !mscale_0_r; reflexivity.
  Qed.
End C32.
Print Assumptions C32_kzg_complete.
Print Assumptions C32_too_large.
Print Assumptions C33_acceptance.
Print Assumptions C33_two_openings.
Print Assumptions C33_one_evaluation_per_proof.

(** alpha = 7: commit to 3 + 2X + X^2 (value 66) and open at 5 (value 38, proof 2 + (7 + 5)) *)
Definition ex_kzg (p : list Z) (z e : Z) : res (zp * zp * bool) :=
  do (powers, v, _) <- kzg_setup (P := ZPair) ex_rand 7%Z 4;
  do com <- kzg_commit (P := ZPair) powers (zl p);
  do proof <- kzg_open (P := ZPair) powers (zl p) (zq z);
  do ok <- kzg_verify (P := ZPair) v com (zq z) (zq e) proof;
  Ok (com, proof, ok).
Example C32_example : ex_kzg [3; 2; 1]%Z 5 38 = Ok (zq 66, zq 14, true) /\ ex_kzg [] 5 0 = Ok (zq 0, zq 0, true).
Proof. vm_compute. split; reflexivity. Qed.
Example C32_too_large_example : outcome (ex_kzg [3; 2; 1; 0; 0; 9]%Z 5 38) = outcome (Panic (A := unit)).
Proof. vm_compute. reflexivity. Qed.
Example C33_example : ex_kzg [3; 2; 1]%Z 5 39 = Ok (zq 66, zq 14, false).
Proof. vm_compute. reflexivity. Qed.
(** With the trapdoor, a commitment opens to two values: proofs (66 - 38) / 2 = 14 and (66 - 40) / 2 = 13 *)
Example C33_two_openings_example :
  (do (_, v, _) <- kzg_setup (P := ZPair) ex_rand 7%Z 4;
   do ok1 <- kzg_verify (P := ZPair) v (zq 66) (zq 5) (zq 38) (zq 14);
   do ok2 <- kzg_verify (P := ZPair) v (zq 66) (zq 5) (zq 40) (zq 13);
   Ok (ok1, ok2)) = Ok (true, true).
Proof. vm_compute. reflexivity. Qed.

(** ** C34 *)
Section C34.
  Context {R : Type} {P : pairing}.
  Notation K := (pK P).
  Variables (E E' : penv) (HE : 1 <= threads E) (HE' : 1 <= threads E').
  Variable D : bytes -> bytes.
  Variable fuel : nat.
  Variable rand : sampler R (pK P).
  Variables rand_g2 rand_g2' : sampler R (pG2 P).

  Theorem C34_bivariate_complete (rng : R) k xd yd : digest16 D -> xd + 1 = 2 ^ S k ->
    exists s rng' v, bpc_setup P rand rng xd yd = Ok (s, rng') /\ get_verifier_key (fst s) = Ok v /\
      forall p x y, length p <= xd + 1 -> Forall (degree_below (yd + 1)) p ->
      exists com coms, bpc_commit P E rand_g2 s p = Ok (com, coms) /\
        (bpc_open P E D fuel rand_g2 s p coms (x, y) = Loop \/
         exists proof, bpc_open P E D fuel rand_g2 s p coms (x, y) = Ok proof /\
           bpc_verify P E' D fuel rand_g2' v com (x, y) (bipoly_at p x y) proof = Ok true).
  Proof using HE HE'.
    intros HD Hx. destruct (bpc_setup_ok (P := P) rand rng xd yd) as [rng' Hs].
    eexists _, rng', _. split; [exact Hs|]. split; [apply trap_bsrs_vkey|].
    intros p x y Hl Hr. apply degree_below_wfs in Hr.
    eexists _, _. split; [apply (bpc_commit_ok E HE rand_g2 _ _ xd yd p Hl Hr)|].
    rewrite <- C35_bivariate_evaluation.
    apply (bpc_complete_outcome E E' HE HE' D fuel rand_g2 rand_g2' _ _ k xd yd p Hx Hl Hr x y HD).
  Qed.

  Theorem C34_bivariate_complete_live (rng : R) k xd yd :
    rounds_end (mod_carrier (pGT P)) (mod_carrier (fmod K)) (identity_output (pG1 P)) D fuel ->
    draws_end K D fuel -> digest16 D -> xd + 1 = 2 ^ S k ->
    exists s rng' v, bpc_setup P rand rng xd yd = Ok (s, rng') /\ get_verifier_key (fst s) = Ok v /\
      forall p x y, length p <= xd + 1 -> Forall (degree_below (yd + 1)) p ->
      exists com coms proof, bpc_commit P E rand_g2 s p = Ok (com, coms) /\
        bpc_open P E D fuel rand_g2 s p coms (x, y) = Ok proof /\
        bpc_verify P E' D fuel rand_g2' v com (x, y) (bipoly_at p x y) proof = Ok true.
  Proof using HE HE'.
    intros HL HL2 HD Hx. destruct (bpc_setup_ok (P := P) rand rng xd yd) as [rng' Hs].
    eexists _, rng', _. split; [exact Hs|]. split; [apply trap_bsrs_vkey|].
    intros p x y Hl Hr. apply degree_below_wfs in Hr.
    destruct (bpc_complete_live E E' HE HE' D fuel rand_g2 rand_g2' (fst (rand rng)) (fst (rand (snd (rand rng))))
      k xd yd p Hx Hl Hr x y) as [proof [H1 H2]]; eauto using rounds_end_live, draws_end_live.
    eexists _, _, proof. split; [apply (bpc_commit_ok E HE rand_g2 _ _ xd yd p Hl Hr)|].
    rewrite <- C35_bivariate_evaluation. auto.
  Qed.
End C34.
Print Assumptions C34_bivariate_complete.
Print Assumptions C34_bivariate_complete_live.

Definition ex_bpc (p : list (list zp)) (x y e : Z) : res bool :=
  do (s, _) <- bpc_setup ZPair ex_scalars 5%Z 3 1;
  do v <- get_verifier_key (fst s);
  do (com, coms) <- bpc_commit ZPair ex_env ex_rand s p;
  do proof <- bpc_open ZPair ex_env toy_digest 9 ex_rand s p coms (zq x, zq y);
  bpc_verify ZPair ex_env1 toy_digest 9 ex_rand v com (zq x, zq y) (zq e) proof.
(** (3 + 4y) + (5 + 6y) x + 0 x^2 with one row missing and one empty, at (2, 10) *)
Example C34_example :
  ex_bpc [zl [3; 4]; zl [5; 6]; []]%Z 2 10 173 = Ok true /\ ex_bpc [zl [3; 4]; zl [5; 6]; []]%Z 2 10 174 = Ok false.
Proof. vm_compute. split; reflexivity. Qed.

(** ** C37 *)
Lemma of_nat_pow2_sq j : Z.of_nat (2 ^ j * 2 ^ j) = (2 ^ Z.of_nat j * 2 ^ Z.of_nat j)%Z.
Proof. rewrite Nat2Z.inj_mul, Nat2Z.inj_pow. reflexivity. Qed.

(** The two instances of the code: thresholds 32/16 (mod.rs) and 8/4 (transparent.rs). *)
Theorem C37_degrees_partial thr fac d : (thr, fac) = (32, 16) \/ (thr, fac) = (8, 4) ->
  1 <= d -> (Z.of_nat d < 2 ^ 52)%Z ->
  exists s x y, bivariate_degrees thr fac d = Ok (x, y) /\
    (exists j, s = 2 ^ j) /\ (exists a, 1 <= a /\ x + 1 = 2 ^ a) /\ (exists b, y + 1 = 2 ^ b) /\
    (x + 1) * (y + 1) = s * s /\ d + 1 <= s * s /\
    forall i, d + 1 <= 2 ^ i * 2 ^ i -> s <= 2 ^ i.
Proof.
  intros Hf Hd Hlt.
  assert (Hf' : exists f, 1 <= f /\ thr = 2 * 2 ^ f /\ fac = 2 ^ f).
  { destruct Hf as [[= -> ->]|[= -> ->]]; [exists 4|exists 2]; repeat split; lia. }
  destruct Hf' as [f [Hf1 [-> ->]]].
  destruct (bivariate_degrees_ok f d Hf1 Hd Hlt) as [j [a [b [H [Ha [Hab [Hj [H1 H2]]]]]]]].
  pose proof (pow2_pos a) as Pa. pose proof (pow2_pos b) as Pb.
  exists (2 ^ j), (2 ^ a - 1), (2 ^ b - 1). split; [exact H|]. split; [now exists j|].
  split; [exists a; lia|]. split; [exists b; lia|]. split; [|split].
  - replace (2 ^ a - 1 + 1) with (2 ^ a) by lia. replace (2 ^ b - 1 + 1) with (2 ^ b) by lia.
    rewrite <- !Nat.pow_add_r. f_equal. lia.
  - rewrite <- of_nat_pow2_sq in H1. lia.
  - intros i Hi. apply Nat.pow_le_mono_r; [lia|]. destruct (Nat.le_gt_cases j i); auto. exfalso.
    specialize (H2 i H0). rewrite <- of_nat_pow2_sq in H2. lia.
Qed.

(** At d = 0 the skew factor is 0 and the division panics (so setup panics for constant polynomials). *)
Theorem C37_degree_zero_refuted thr fac : (thr, fac) = (32, 16) \/ (thr, fac) = (8, 4) ->
  bivariate_degrees thr fac 0 = Panic.
Proof.
  intros [[= -> ->]|[= -> ->]].
  - apply (bivariate_degrees_0 4). lia.
  - apply (bivariate_degrees_0 2). lia.
Qed.

(** At d = 2^52 the rounding of d + 1 to a double loses the last coefficient. *)
Theorem C37_rounding_refuted thr fac : (thr, fac) = (32, 16) \/ (thr, fac) = (8, 4) ->
  exists d x y, Z.of_nat d = (2 ^ 52)%Z /\ bivariate_degrees thr fac d = Ok (x, y) /\ (x + 1) * (y + 1) < d + 1.
Proof.
  intros Hf.
  assert (Hf' : exists f, 1 <= f /\ f < 26 /\ thr = 2 * 2 ^ f /\ fac = 2 ^ f).
  { destruct Hf as [[= -> ->]|[= -> ->]]; [exists 4|exists 2]; repeat split; lia. }
  destruct Hf' as [f [Hf1 [Hf2 [-> ->]]]].
  assert (Hd : Z.of_nat (Z.to_nat (2 ^ 52)) = (2 ^ 52)%Z) by (apply Z2Nat.id; lia).
  eexists _, _, _. split; [exact Hd|]. split; [apply bivariate_degrees_2_52; auto|].
  pose proof (pow2_pos (26 - f)). pose proof (pow2_pos (26 + f)).
  replace (2 ^ (26 - f) - 1 + 1) with (2 ^ (26 - f)) by lia.
  replace (2 ^ (26 + f) - 1 + 1) with (2 ^ (26 + f)) by lia.
  rewrite <- Nat.pow_add_r. replace (26 - f + (26 + f)) with 52 by lia.
  apply Nat2Z.inj_lt. rewrite Nat2Z.inj_add, Hd, Nat2Z.inj_pow. reflexivity.
Qed.
Print Assumptions C37_degrees_partial.
Print Assumptions C37_degree_zero_refuted.
Print Assumptions C37_rounding_refuted.

Example C37_example :
  bivariate_degrees 32 16 70 = Ok (1, 127) /\ bivariate_degrees 8 4 70 = Ok (3, 63) /\
  bivariate_degrees 32 16 1023 = Ok (1, 511) /\ bivariate_degrees 32 16 1024 = Ok (3, 1023).
Proof. vm_compute. repeat split; reflexivity. Qed.

(** Value at (u, v) of the polynomial in two variables whose coefficient of u^i v^j is p_(i (yd + 1) + j). *)
Definition split_at {K : field} (xd yd : nat) (p : list K) (u v : K) : K :=
  fbig (xd + 1) (fun i => fbig (yd + 1) (fun j => fat p (i * (yd + 1) + j) *f fpow u i *f fpow v j)).

Section SplitFacts.
  Context {K : field}.
  Add Field KfSplit : (f_theory K).
  Lemma ev_le_length (l : list K) n y : length l <= n -> poly_evaluate l y = fbig n (fun j => fat l j *f fpow y j).
  Proof.
    intros H. rewrite ev_poly_at. unfold poly_at. symmetry. apply fbig_pad; auto.
    intros i Hi. unfold fat. rewrite nth_overflow by lia. ring.
  Qed.
  Lemma fbig_sub n (F G : nat -> K) : fbig n (fun i => F i -f G i) = fbig n F -f fbig n G.
  Proof. induction n; cbn [fbig]; [ring|]. rewrite IHn. ring. Qed.
End SplitFacts.

(** ** C38 *)
Section C38.
  Context {R : Type} {P : pairing}.
  Notation K := (pK P).
  Add Field KfC38 : (f_theory (pK P)).
  Variables (E E' : penv) (HE : 1 <= threads E) (HE' : 1 <= threads E').
  Variable D : bytes -> bytes.
  Variable fuel : nat.
  Variable rand : sampler R (pK P).
  Variables rand_g2 rand_g2' : sampler R (pG2 P).

  Theorem C38_univariate_complete (rng : R) d : digest16 D -> 1 <= d -> (Z.of_nat d < 2 ^ 52)%Z ->
    exists s rng' v, upc_setup P rand rng d = Ok (s, rng') /\ get_verifier_key (fst s) = Ok v /\
      forall p z, degree_below (d + 1) p ->
      exists com coms, upc_commit P E rand_g2 s p = Ok (com, coms) /\
        (upc_open P E D fuel rand_g2 s p coms z = Loop \/
         exists proof, upc_open P E D fuel rand_g2 s p coms z = Ok proof /\
           upc_verify P E' D fuel rand_g2' v d com z (poly_at p z) proof = Ok true).
  Proof using HE HE'.
    intros HD Hd Hlt. destruct (upc_setup_ok (P := P) rand rng d Hd Hlt) as [xd [yd [rng' [Hdeg Hs]]]].
    eexists _, rng', _. split; [exact Hs|]. split; [apply trap_bsrs_vkey|].
    intros p z Hp. apply degree_below_wf in Hp. rewrite <- ev_poly_at.
    now apply upc_complete_outcome.
  Qed.

  Theorem C38_univariate_complete_live (rng : R) d :
    rounds_end (mod_carrier (pGT P)) (mod_carrier (fmod K)) (identity_output (pG1 P)) D fuel ->
    draws_end K D fuel -> digest16 D -> 1 <= d -> (Z.of_nat d < 2 ^ 52)%Z ->
    exists s rng' v, upc_setup P rand rng d = Ok (s, rng') /\ get_verifier_key (fst s) = Ok v /\
      forall p z, degree_below (d + 1) p ->
      exists com coms proof, upc_commit P E rand_g2 s p = Ok (com, coms) /\
        upc_open P E D fuel rand_g2 s p coms z = Ok proof /\
        upc_verify P E' D fuel rand_g2' v d com z (poly_at p z) proof = Ok true.
  Proof using HE HE'.
    intros HL HL2 HD Hd Hlt. destruct (upc_setup_ok (P := P) rand rng d Hd Hlt) as [xd [yd [rng' [Hdeg Hs]]]].
    eexists _, rng', _. split; [exact Hs|]. split; [apply trap_bsrs_vkey|].
    intros p z Hp. apply degree_below_wf in Hp. rewrite <- ev_poly_at.
    apply upc_complete_live; eauto using rounds_end_live, draws_end_live.
  Qed.

  (** ** C39 *)
  (** p and p + X^cap get the same commitments from the same call that reports success. *)
  Theorem C39_dropped_coefficients_refuted (rng : R) d : 1 <= d -> (Z.of_nat d < 2 ^ 52)%Z ->
    exists s rng' cap, upc_setup P rand rng d = Ok (s, rng') /\ d < cap /\
      forall p, length p <= cap ->
        let p' := p ++ repeat f0 (cap - length p) ++ [f1] in
        (forall z, poly_at p' z = poly_at p z +f fpow z cap) /\
        (exists r, upc_commit P E rand_g2 s p = Ok r /\ upc_commit P E rand_g2 s p' = Ok r) /\
        (forall coms z, upc_open P E D fuel rand_g2 s p' coms z = upc_open P E D fuel rand_g2 s p coms z).
  Proof using HE.
    clear HE' E' rand_g2'. intros Hd Hlt. destruct (degrees_split 4 d ltac:(lia) Hd Hlt) as [k [k' [xd [yd [Hb [_ [_ Hcap]]]]]]].
    destruct (upc_setup_ok (P := P) rand rng d Hd Hlt) as [xd' [yd' [rng' [Hdeg Hs]]]].
    change (2 * 2 ^ 4) with 32 in Hb. change (2 ^ 4) with 16 in Hb. rewrite Hdeg in Hb.
    apply Ok_inj in Hb. injection Hb as -> ->.
    exists (trap_bsrs (fst (rand rng)) (fst (rand (snd (rand rng)))) xd yd), rng', ((xd + 1) * (yd + 1)).
    split; [exact Hs|]. split; [lia|]. intros p Hp p'. set (cap := (xd + 1) * (yd + 1)) in *.
    assert (Hpad : firstn cap p' = resize cap f0 p).
    { unfold p'. rewrite app_assoc, firstn_app.
      rewrite firstn_all2 by (rewrite app_length, repeat_length; lia).
      rewrite app_length, repeat_length. replace (cap - (length p + (cap - length p))) with 0 by lia.
      cbn [firstn]. rewrite app_nil_r. unfold resize. now rewrite firstn_all2 by lia. }
    assert (Hform : bivariate_form (xd, yd) p' = bivariate_form (xd, yd) p).
    { unfold bivariate_form. rewrite !chain_take_resize. f_equal. fold cap.
      unfold resize. rewrite Hpad. unfold resize at 1.
      replace (cap - length p') with 0.
      - cbn [repeat]. now rewrite app_nil_r.
      - unfold p'. rewrite !app_length, repeat_length. cbn [length]. lia. }
    split; [|split].
    - intros z. rewrite <- !ev_poly_at. unfold p'. rewrite app_assoc, ev_app, (ev_app p), ev_repeat0.
      rewrite app_length, repeat_length. replace (length p + (cap - length p)) with cap by lia.
      cbn [poly_evaluate fold_right]. ring.
    - destruct (upc_commit_total E HE rand_g2 (fst (rand rng)) (fst (rand (snd (rand rng)))) xd yd p) as [r Hr].
      exists r. split; [exact Hr|]. rewrite <- Hr. unfold upc_commit. rewrite parse_degrees_trap. cbn [rbind].
      now rewrite Hform.
    - intros coms z. unfold upc_open. rewrite parse_degrees_trap. cbn [rbind]. now rewrite Hform.
  Qed.

  (** Within the capacity the commitment is the value at the trapdoors (beta^2, alpha) of the bivariate form
      with ALL coefficients, and the row commitments are the values of the rows at alpha. *)
  Theorem C39_commitment_value_partial (rng : R) d : 1 <= d -> (Z.of_nat d < 2 ^ 52)%Z ->
    exists s rng' xd yd, upc_setup P rand rng d = Ok (s, rng') /\ d + 1 <= (xd + 1) * (yd + 1) /\
      forall p, exists coms,
        upc_commit P E rand_g2 s p =
          Ok (split_at xd yd p (fpow (fst (rand (snd (rand rng)))) 2) (fst (rand rng)) *m pr_e P (pr_g P) (pr_h P), coms) /\
        length coms = xd + 1 /\
        forall i, i < xd + 1 ->
          at_ coms i = fbig (yd + 1) (fun j => fat p (i * (yd + 1) + j) *f fpow (fst (rand rng)) j) *m pr_g P.
  Proof using HE.
    clear HE' E' rand_g2'. intros Hd Hlt.
    destruct (degrees_split 4 d ltac:(lia) Hd Hlt) as [k [k' [xd [yd [Hb [_ [_ Hcap]]]]]]].
    destruct (upc_setup_ok (P := P) rand rng d Hd Hlt) as [xd' [yd' [rng' [Hdeg Hs]]]].
    change (2 * 2 ^ 4) with 32 in Hb. change (2 ^ 4) with 16 in Hb. rewrite Hdeg in Hb.
    apply Ok_inj in Hb. injection Hb as -> ->.
    set (alpha := fst (rand rng)) in *. set (beta := fst (rand (snd (rand rng)))) in *.
    exists (trap_bsrs alpha beta xd yd), rng', xd, yd. split; [exact Hs|]. split; [exact Hcap|].
    intros p. destruct (bivariate_form_ok xd yd p) as [bp [Hbp [Hl [Hrows _]]]].
    assert (Hwf : Forall (wf_row (yd + 1)) bp).
    { eapply Forall_impl; [|exact Hrows]. intros r [Hst Hlr]. apply wf_row_stripped; auto. lia. }
    assert (Hrow : forall i, i < xd + 1 -> poly_evaluate (nth i bp []) alpha =
              fbig (yd + 1) (fun j => fat p (i * (yd + 1) + j) *f fpow alpha j)).
    { intros i Hi. rewrite (ev_le_length _ (yd + 1)).
      - apply fbig_ext. intros j Hj. f_equal. eapply bivariate_form_fat; eauto.
      - rewrite Forall_forall in Hrows. apply Hrows. apply nth_In. lia. }
    assert (Hle : length bp <= xd + 1) by lia.
    unfold upc_commit. rewrite parse_degrees_trap. cbn [rbind]. rewrite Hbp. cbn [rbind].
    rewrite (bpc_commit_ok E HE rand_g2 alpha beta xd yd bp Hle Hwf).
    rewrite resize_self by auto. set (coms := map _ bp).
    assert (Hcl : length coms = xd + 1) by (unfold coms; rewrite map_length; exact Hl).
    assert (Hat : forall i, i < xd + 1 ->
              at_ coms i = fbig (yd + 1) (fun j => fat p (i * (yd + 1) + j) *f fpow alpha j) *m pr_g P).
    { intros i Hi. rewrite <- Hrow by auto. unfold at_, coms.
      rewrite (nth_indep _ m0 (poly_evaluate [] alpha *m pr_g P)) by (rewrite map_length; lia).
      now rewrite (map_nth (fun row => poly_evaluate row alpha *m pr_g P)). }
    exists coms. split; [|split; assumption]. f_equal. f_equal.
    rewrite dot_big by (rewrite key_vec_length; symmetry; exact Hcl). rewrite key_vec_length.
    unfold split_at. rewrite <- big_fscale. apply big_ext. intros i Hi. unfold phi_g1. rewrite Hat by auto.
    unfold key_vec. rewrite (at_map_seq (fun i => fpow (beta *f beta *f f1) i *m pr_h P)) by auto.
    rewrite e_scale_l, e_scale_r, <- mscale_mul. f_equal.
    rewrite (Rmul_comm (F_R (f_theory K))), <- fbig_scale. apply fbig_ext. intros j Hj. cbn [fpow].
    replace (beta *f beta *f f1) with (beta *f (beta *f f1)) by ring. ring.
  Qed.

  (** So two polynomials within the capacity with the same commitment are equal, or their difference gives a
      non-zero bivariate polynomial with the trapdoors as a root. *)
  Theorem C39_binding_partial (rng : R) d : 1 <= d -> (Z.of_nat d < 2 ^ 52)%Z -> pr_g P <> m0 ->
    exists s rng' xd yd, upc_setup P rand rng d = Ok (s, rng') /\ d + 1 <= (xd + 1) * (yd + 1) /\
      forall p p' com coms coms',
        length p <= (xd + 1) * (yd + 1) -> length p' = length p -> p <> p' ->
        upc_commit P E rand_g2 s p = Ok (com, coms) -> upc_commit P E rand_g2 s p' = Ok (com, coms') ->
        exists q, (exists i, i < (xd + 1) * (yd + 1) /\ fat q i <> f0) /\
          (forall i, fat q i = fat p i -f fat p' i) /\
          split_at xd yd q (fpow (fst (rand (snd (rand rng)))) 2) (fst (rand rng)) = f0.
  Proof using HE.
    clear HE' E' rand_g2'. intros Hd Hlt Hg. destruct (C39_commitment_value_partial rng d Hd Hlt) as [s [rng' [xd [yd [Hs [Hcap H]]]]]].
    exists s, rng', xd, yd. split; [exact Hs|]. split; [exact Hcap|].
    intros p p' com coms coms' Hp Hp' Hne H1 H2.
    set (q := map (fun i => fat p i -f fat p' i) (seq 0 (length p))).
    assert (Hq : forall i, fat q i = fat p i -f fat p' i).
    { intros i. destruct (Nat.lt_ge_cases i (length p)) as [Hi|Hi].
      - exact (at_map_seq (M := fmod K) (fun i => fat p i -f fat p' i) (length p) i Hi).
      - unfold fat, q. rewrite !nth_overflow by (try rewrite map_length, seq_length; lia). ring. }
    exists q. split; [|split; [exact Hq|]].
    - assert (Hdec : forall n, (exists i, i < n /\ fat q i <> f0) \/ forall i, i < n -> fat q i = f0).
      { induction n as [|n [[i [Hi Hn]]|IH]].
        - right. intros; lia.
        - left. exists i. split; [lia|auto].
        - destruct (f_eq_dec _ (fat q n) f0) as [Hz|Hz].
          + right. intros i Hi. destruct (Nat.eq_dec i n) as [->|]; auto. apply IH. lia.
          + left. exists n. split; [lia|auto]. }
      destruct (Hdec (length p)) as [[i [Hi Hn]]|Hz].
      + exists i. split; [lia|auto].
      + exfalso. apply Hne. apply (nth_ext _ _ f0 f0); [congruence|]. intros i Hi.
        specialize (Hz i Hi). rewrite Hq in Hz. now apply (proj1 (fsub_eq0 _ _ _)) in Hz.
    - destruct (H p) as [c [Hc _]]. destruct (H p') as [c' [Hc' _]].
      rewrite H1 in Hc. rewrite H2 in Hc'. apply Ok_inj in Hc, Hc'. apply (f_equal fst) in Hc, Hc'. cbn [fst] in Hc, Hc'.
      assert (Hd0 : (split_at xd yd p (fpow (fst (rand (snd (rand rng)))) 2) (fst (rand rng)) -f
                     split_at xd yd p' (fpow (fst (rand (snd (rand rng)))) 2) (fst (rand rng))) *m pr_e P (pr_g P) (pr_h P) = m0).
      { rewrite <- scale_sub, <- Hc, <- Hc'. now apply msub_eq0. }
      apply mscale_integral in Hd0 as [Hd0|Hd0].
      + rewrite <- Hd0. unfold split_at. rewrite <- fbig_sub. apply fbig_ext. intros i Hi.
        rewrite <- fbig_sub. apply fbig_ext. intros j Hj. rewrite Hq. ring.
      + exfalso. apply Hg. now apply e_nondeg_l.
  Qed.
End C38.
Print Assumptions C38_univariate_complete.
Print Assumptions C38_univariate_complete_live.
Print Assumptions C39_dropped_coefficients_refuted.
Print Assumptions C39_commitment_value_partial.
Print Assumptions C39_binding_partial.

Definition ex_upc (d : nat) (p : list Z) (z e : Z) : res (zp * bool) :=
  do (s, _) <- upc_setup ZPair ex_scalars 5%Z d;
  do v <- get_verifier_key (fst s);
  do (com, coms) <- upc_commit ZPair ex_env ex_rand s (zl p);
  do proof <- upc_open ZPair ex_env toy_digest 9 ex_rand s (zl p) coms (zq z);
  do ok <- upc_verify ZPair ex_env1 toy_digest 9 ex_rand v d com (zq z) (zq e) proof;
  Ok (com, ok).
(** d = 3 gives a 2 x 2 split *)
Example C38_example :
  ex_upc 3 [1; 2; 3; 4]%Z 3 142 = Ok (zq 839, true) /\ ex_upc 3 [1; 2; 3; 4]%Z 3 143 = Ok (zq 839, false) /\
  ex_upc 5 [1; 2; 3]%Z 10 321 = Ok (zq 86, true).
Proof. vm_compute. repeat split; reflexivity. Qed.
(** alpha = 5, beta = 6: (1 + 2 * 5) + (3 + 4 * 5) * 36 = 839.  Adding 9 X^4 + 7 X^5 changes nothing, and the
    value of the truncated polynomial is accepted for the longer one. *)
Example C39_example : ex_upc 3 [1; 2; 3; 4; 9; 7]%Z 3 142 = Ok (zq 839, true).
Proof. vm_compute. reflexivity. Qed.

(** ** C40 *)
Section C40.
  Context {R : Type} {P : pairing}.
  Notation K := (pK P).
  Variables (E E' : penv) (HE : 1 <= threads E) (HE' : 1 <= threads E').
  Variable D : bytes -> bytes.
  Variable fuel : nat.
  Variables rand_g1 rand_g1' : sampler R (pG1 P).
  Variables rand_g2 rand_g2' : sampler R (pG2 P).

  Lemma gssm_setup_total {Msg Key T : module K} {Out} (C : dhc R Msg Key Out) rng n : setup_total C ->
    exists keys rng', gssm_setup C (identity T) rng n = Ok (keys, tt, rng') /\ length keys = n.
  Proof using.
    intros H. destruct (H rng n) as [keys [rng' [H1 H2]]]. exists keys, rng'. split; auto.
    unfold gssm_setup. rewrite H1. reflexivity.
  Qed.

  (** setup gives two keys of the right lengths (of sampled group elements: C08) *)
  Theorem C40_setup (rng : R) xd yd : exists ck1 ck2 rng',
    tbpc_setup P E rand_g1 rand_g2 rng xd yd = Ok (ck1, ck2, rng') /\ length ck1 = yd + 1 /\ length ck2 = xd + 1.
  Proof using.
    destruct (C08_setups_total R K (pG1 P) P E rand_g1 rand_g1 rand_g2) as [S1 [S2 _]].
    unfold tbpc_setup.
    destruct (gssm_setup_total (T := fmod K) _ rng (yd + 1) S1) as [ck1 [rng1 [H1 L1]]]. rewrite H1. cbn [rbind].
    destruct (gssm_setup_total (T := pG1 P) _ rng1 (xd + 1) S2) as [ck2 [rng2 [H2 L2]]]. rewrite H2. cbn [rbind].
    eauto 10.
  Qed.

  (** rows may have trailing zeros here (the code uses their length, not their degree) *)
  Theorem C40_bivariate_complete (ck1 : list (pG1 P)) (ck2 : list (pG2 P)) k1 k2 p x y : digest16 D ->
    length ck1 = 2 ^ k1 -> length ck2 = 2 ^ k2 ->
    length p <= 2 ^ k2 -> Forall (fun row => length row <= 2 ^ k1) p ->
    exists com coms, tbpc_commit P E rand_g1 rand_g2 (ck1, ck2) p = Ok (com, coms) /\
      (tbpc_open P E D fuel rand_g1 rand_g2 (ck1, ck2) p coms (x, y) = Loop \/
       exists proof, tbpc_open P E D fuel rand_g1 rand_g2 (ck1, ck2) p coms (x, y) = Ok proof /\
         tbpc_verify P E' D fuel rand_g1' rand_g2' (ck1, ck2) com (x, y) (bipoly_at p x y) proof = Ok true).
  Proof using HE HE'.
    intros HD H1 H2 Hl Hr. rewrite <- H2 in Hl. rewrite <- H1 in Hr.
    eexists _, _. split; [apply (tbpc_commit_ok E HE rand_g1 rand_g2 ck1 ck2 p Hl Hr)|].
    rewrite <- C35_bivariate_evaluation.
    apply (tbpc_complete_outcome E E' HE HE' D fuel rand_g1 rand_g1' rand_g2 rand_g2' ck1 ck2 p Hl Hr k1 k2 x y H2 H1 HD).
  Qed.

  Theorem C40_bivariate_complete_live (ck1 : list (pG1 P)) (ck2 : list (pG2 P)) k1 k2 p x y :
    rounds_end (mod_carrier (pGT P)) (mod_carrier (fmod K)) (identity_output (pG1 P)) D fuel ->
    rounds_end (mod_carrier (pG1 P)) (mod_carrier (fmod K)) (identity_output (fmod K)) D fuel -> digest16 D ->
    length ck1 = 2 ^ k1 -> length ck2 = 2 ^ k2 ->
    length p <= 2 ^ k2 -> Forall (fun row => length row <= 2 ^ k1) p ->
    exists com coms proof, tbpc_commit P E rand_g1 rand_g2 (ck1, ck2) p = Ok (com, coms) /\
      tbpc_open P E D fuel rand_g1 rand_g2 (ck1, ck2) p coms (x, y) = Ok proof /\
      tbpc_verify P E' D fuel rand_g1' rand_g2' (ck1, ck2) com (x, y) (bipoly_at p x y) proof = Ok true.
  Proof using HE HE'.
    intros HL HL2 HD H1 H2 Hl Hr. rewrite <- H2 in Hl. rewrite <- H1 in Hr.
    destruct (tbpc_complete_live E E' HE HE' D fuel rand_g1 rand_g1' rand_g2 rand_g2' ck1 ck2 p Hl Hr k1 k2 x y H2 H1
      (rounds_end_live _ _ HD HL) (rounds_end_live _ _ HD HL2)) as [proof [G1 G2]].
    eexists _, _, proof. split; [apply (tbpc_commit_ok E HE rand_g1 rand_g2 ck1 ck2 p Hl Hr)|].
    rewrite <- C35_bivariate_evaluation. auto.
  Qed.

  Lemma tupc_setup_ok (rng : R) d : 1 <= d -> (Z.of_nat d < 2 ^ 52)%Z ->
    exists k1 k2 xd yd ck1 ck2 rng', tupc_setup P E rand_g1 rand_g2 rng d = Ok (ck1, ck2, rng') /\
      length ck2 = xd + 1 /\ length ck1 = yd + 1 /\ xd + 1 = 2 ^ k2 /\ yd + 1 = 2 ^ k1 /\
      d + 1 <= (xd + 1) * (yd + 1).
  Proof using.
    clear HE HE' E'. intros Hd Hlt. destruct (degrees_split 2 d ltac:(lia) Hd Hlt) as [k [k' [xd [yd [Hb [Hx [Hy Hcap]]]]]]].
    change (2 * 2 ^ 2) with 8 in Hb. change (2 ^ 2) with 4 in Hb.
    destruct (C40_setup rng xd yd) as [ck1 [ck2 [rng' [Hs [H1 H2]]]]].
    exists (S k'), (S k), xd, yd, ck1, ck2, rng'. unfold tupc_setup. rewrite Hb. cbn [rbind]. auto 10.
  Qed.

  Theorem C40_univariate_complete (rng : R) d : digest16 D -> 1 <= d -> (Z.of_nat d < 2 ^ 52)%Z ->
    exists ck rng', tupc_setup P E rand_g1 rand_g2 rng d = Ok (ck, rng') /\
      forall p z, degree_below (d + 1) p ->
      exists com coms, tupc_commit P E rand_g1 rand_g2 ck p = Ok (com, coms) /\
        (tupc_open P E D fuel rand_g1 rand_g2 ck p coms z = Loop \/
         exists proof, tupc_open P E D fuel rand_g1 rand_g2 ck p coms z = Ok proof /\
           tupc_verify P E' D fuel rand_g1' rand_g2' ck com z (poly_at p z) proof = Ok true).
  Proof using HE HE'.
    intros HD Hd Hlt.
    destruct (tupc_setup_ok rng d Hd Hlt) as [k1 [k2 [xd [yd [ck1 [ck2 [rng' [Hs [H2 [H1 [Hx [Hy Hcap]]]]]]]]]]]].
    exists (ck1, ck2), rng'. split; [exact Hs|]. intros p z Hp. rewrite <- ev_poly_at.
    apply degree_below_wf, (wf_row_mono (d + 1) _ p Hcap) in Hp.
    apply (tupc_complete_outcome E E' HE HE' D fuel rand_g1 rand_g1' rand_g2 rand_g2' ck1 ck2 k1 k2 xd yd p z
             H2 H1 Hx Hy Hp HD).
  Qed.

  Theorem C40_univariate_complete_live (rng : R) d :
    rounds_end (mod_carrier (pGT P)) (mod_carrier (fmod K)) (identity_output (pG1 P)) D fuel ->
    rounds_end (mod_carrier (pG1 P)) (mod_carrier (fmod K)) (identity_output (fmod K)) D fuel -> digest16 D ->
    1 <= d -> (Z.of_nat d < 2 ^ 52)%Z ->
    exists ck rng', tupc_setup P E rand_g1 rand_g2 rng d = Ok (ck, rng') /\
      forall p z, degree_below (d + 1) p ->
      exists com coms proof, tupc_commit P E rand_g1 rand_g2 ck p = Ok (com, coms) /\
        tupc_open P E D fuel rand_g1 rand_g2 ck p coms z = Ok proof /\
        tupc_verify P E' D fuel rand_g1' rand_g2' ck com z (poly_at p z) proof = Ok true.
  Proof using HE HE'.
    intros HL HL2 HD Hd Hlt.
    destruct (tupc_setup_ok rng d Hd Hlt) as [k1 [k2 [xd [yd [ck1 [ck2 [rng' [Hs [H2 [H1 [Hx [Hy Hcap]]]]]]]]]]]].
    exists (ck1, ck2), rng'. split; [exact Hs|]. intros p z Hp. rewrite <- ev_poly_at.
    apply degree_below_wf, (wf_row_mono (d + 1) _ p Hcap) in Hp.
    apply (tupc_complete_live E E' HE HE' D fuel rand_g1 rand_g1' rand_g2 rand_g2' ck1 ck2 k1 k2 xd yd p z
             H2 H1 Hx Hy Hp); eauto using rounds_end_live.
  Qed.

  (** the transparent scheme drops coefficients in the same way *)
  Theorem C39_transparent_dropped_refuted (ck1 : list (pG1 P)) (ck2 : list (pG2 P)) p extra :
    length p = length ck2 * length ck1 ->
    tupc_commit P E rand_g1 rand_g2 (ck1, ck2) (p ++ extra) = tupc_commit P E rand_g1 rand_g2 (ck1, ck2) p.
  Proof using HE.
    intros H. rewrite <- (tupc_commit_firstn E E HE HE rand_g1 rand_g2 ck1 ck2 (p ++ extra)), <- H.
    rewrite firstn_app, firstn_all, Nat.sub_diag. cbn [firstn]. now rewrite app_nil_r.
  Qed.
End C40.
Print Assumptions C40_setup.
Print Assumptions C40_bivariate_complete.
Print Assumptions C40_bivariate_complete_live.
Print Assumptions C40_univariate_complete.
Print Assumptions C40_univariate_complete_live.
Print Assumptions C39_transparent_dropped_refuted.

Definition ex_tbpc (p : list (list zp)) (x y e : Z) : res bool :=
  do (ck, _) <- tbpc_setup ZPair ex_env ex_rand ex_rand 5%Z 3 1;
  do (com, coms) <- tbpc_commit ZPair ex_env ex_rand ex_rand ck p;
  do proof <- tbpc_open ZPair ex_env toy_digest 9 ex_rand ex_rand ck p coms (zq x, zq y);
  tbpc_verify ZPair ex_env1 toy_digest 9 ex_rand ex_rand ck com (zq x, zq y) (zq e) proof.
Example C40_example :
  ex_tbpc [zl [3; 4]; zl [5; 6]; []]%Z 2 10 173 = Ok true /\ ex_tbpc [zl [3; 4]; zl [5; 6]; []]%Z 2 10 174 = Ok false.
Proof. vm_compute. split; reflexivity. Qed.
Definition ex_tupc (d : nat) (p : list Z) (z e : Z) : res (zp * bool) :=
  do (ck, _) <- tupc_setup ZPair ex_env ex_rand ex_rand 5%Z d;
  do (com, coms) <- tupc_commit ZPair ex_env ex_rand ex_rand ck (zl p);
  do proof <- tupc_open ZPair ex_env toy_digest 9 ex_rand ex_rand ck (zl p) coms (zq z);
  do ok <- tupc_verify ZPair ex_env1 toy_digest 9 ex_rand ex_rand ck com (zq z) (zq e) proof;
  Ok (com, ok).
(** key (5, 6) x (7, 8): (1 5 + 2 6) 7 + (3 5 + 4 6) 8 = 431 *)
Example C40_univariate_example :
  ex_tupc 3 [1; 2; 3; 4]%Z 3 142 = Ok (zq 431, true) /\ ex_tupc 3 [1; 2; 3; 4]%Z 3 143 = Ok (zq 431, false) /\
  ex_tupc 3 [1; 2; 3; 4; 9]%Z 3 142 = Ok (zq 431, true).
Proof. vm_compute. repeat split; reflexivity. Qed.

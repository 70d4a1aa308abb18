(** Properties C62, C63: batch verification of Groth16 proofs in the benchmark. *)
Require Import List Arith NArith ZArith Lia Bool Field.
Import ListNotations.
Require Import Verif.Outcome Verif.Algebra Verif.Zp Verif.Rust Verif.InnerProducts Verif.Commitments
  Verif.Groth16 Verif.Batch Verif.Spec Verif.ListFacts Verif.RustFacts Verif.InnerProductFacts Verif.KeyFacts Verif.Groth16Facts Verif.PropsBase
  Verif.PropsGipa Verif.PropsTipa Verif.PropsGroth.

(** the i-th draw of a generator *)
Definition nth_draw {R A} (rand : sampler R A) (seed : R) (i : nat) : A :=
  fst (rand (Nat.iter i (fun s => snd (rand s)) seed)).

Lemma random_generators_draws {R A} (rand : sampler R A) : forall n seed,
  fst (random_generators rand seed n) = map (nth_draw rand seed) (seq 0 n).
Proof.
  induction n as [|n IH]; intros seed; [reflexivity|]. cbn [random_generators seq map].
  destruct (rand seed) as [x s] eqn:Ex. specialize (IH s). destruct (random_generators rand s n) as [xs s'].
  cbn [fst] in *. f_equal; [unfold nth_draw; cbn; now rewrite Ex|]. rewrite IH, <- seq_shift, map_map. apply map_ext. intros i.
  unfold nth_draw. do 2 f_equal. induction i as [|i IHi]; [cbn; now rewrite Ex|].
  change (snd (rand (Nat.iter i (fun s => snd (rand s)) s)) = snd (rand (Nat.iter (S i) (fun s => snd (rand s)) seed))).
  now rewrite IHi.
Qed.

Section BatchFacts.
  Context {R : Type} {P : pairing}.
  Notation K := (pK P).
  Add Field KfBatch : (f_theory (pK P)).
  Variables (seed : N -> R) (rand_u128 : sampler R N).
  Implicit Types (vk : g16_vk P) (inputs : list (list K)) (proofs : list (g16_proof P)).

  (** the i-th scalar: a u128 from the generator with seed 0 *)
  Definition rho (i : nat) : K := f_ofN (nth_draw rand_u128 (seed 0%N) i).

  Lemma batch_scalars_eq n : batch_scalars P seed rand_u128 n = map rho (seq 0 n).
  Proof. unfold batch_scalars. rewrite random_generators_draws, map_map. reflexivity. Qed.
  Lemma batch_scalars_len n : length (batch_scalars P seed rand_u128 n) = n.
  Proof. now rewrite batch_scalars_eq, map_length, seq_length. Qed.
  Lemma batch_scalars_nth n i d : i < n -> nth i (batch_scalars P seed rand_u128 n) d = rho i.
  Proof.
    intros H. rewrite batch_scalars_eq, (nth_indep _ d (rho 0)) by (now rewrite map_length, seq_length).
    now rewrite (map_nth rho), seq_nth by auto.
  Qed.

  Lemma msum_zip {M : module K} {A B} (f : A -> B -> M) da db : forall l r,
    msum (zipw f l r) = big (Nat.min (length l) (length r)) (fun i => f (nth i l da) (nth i r db)).
  Proof.
    induction l as [|a l IH]; intros [|b r]; try reflexivity.
    cbn [zipw length Nat.min]. rewrite big_S_l. cbn [nth]. rewrite <- IH. reflexivity.
  Qed.
  Lemma msum_map_combine {M : module K} {A B} (f : A * B -> M) da db : forall l r,
    msum (map f (combine l r)) = big (Nat.min (length l) (length r)) (fun i => f (nth i l da, nth i r db)).
  Proof.
    induction l as [|a l IH]; intros [|b r]; try reflexivity.
    cbn [combine map length Nat.min]. rewrite big_S_l. cbn [nth]. rewrite <- IH. reflexivity.
  Qed.

  Lemma batch_input_fold (t : list (pG1 P)) : forall (row : list K) g,
    fold_left (fun g_ic p => g_ic +m (fst p *m snd p)) (combine row t) g = g +m big (length t) (fun j => fat row j *m at_ t j).
  Proof.
    induction t as [|b t IH]; intros [|x row] g; cbn [combine fold_left length]; try (rewrite madd_0_r; reflexivity).
    - rewrite (big_ext _ _ (fun _ => m0)); [now rewrite big_0, madd_0_r|]. intros i _. unfold fat.
      replace (nth i [] f0) with (f0 : K) by (now destruct i). apply mscale_0_l.
    - cbn [fst snd]. rewrite IH, big_S_l. cbn [fat nth at_]. symmetry. apply madd_assoc.
  Qed.
  Lemma batch_input_eq vk row : vk_gamma_abc_g1 vk <> [] -> batch_input P (vk_gamma_abc_g1 vk) row = Ok (input_comb vk row).
  Proof.
    intros H. unfold batch_input, input_comb. destruct (vk_gamma_abc_g1 vk) as [|b t]; [congruence|].
    unfold index. cbn [nth_error runwrap rbind skipn length]. rewrite batch_input_fold.
    replace (S (length t) - 1) with (length t) by lia. reflexivity.
  Qed.

  Lemma fold_fadd (l : list K) : forall a, fold_left fadd l a = a +f fold_right fadd f0 l.
  Proof. induction l as [|b l IH]; intros a; cbn; [ring|]. rewrite IH. ring. Qed.
  Lemma fsum_map_seq (F : nat -> K) : forall n k, fold_right fadd f0 (map F (seq k n)) = fbig n (fun i => F (k + i)).
  Proof.
    induction n as [|n IH]; intros k; [reflexivity|]. cbn [seq map fold_right]. rewrite IH, fbig_S_l, Nat.add_0_r. f_equal.
    apply fbig_ext. intros i _. f_equal. lia.
  Qed.

  (** the verification equations of the first [n] proofs, weighted *)
  Definition batch_lhs proofs : pGT P :=
    big (length proofs) (fun i => rho i *m pr_e P (at_ (map pf_a proofs) i) (at_ (map pf_b proofs) i)).
  Definition batch_rhs vk inputs proofs : pGT P :=
    big (length proofs) (fun i => rho i *m pr_e P (vk_alpha_g1 vk) (vk_beta_g2 vk)) +m
    big (Nat.min (length inputs) (length proofs)) (fun i => rho i *m pr_e P (input_comb vk (nth i inputs [])) (vk_gamma_g2 vk)) +m
    big (length proofs) (fun i => rho i *m pr_e P (at_ (map pf_c proofs) i) (vk_delta_g2 vk)).

  Lemma e_opp_l a b : pr_e P (mopp a) b = mopp (pr_e P a b).
  Proof. apply (madd_cancel_l _ _ (pr_e P a b)). rewrite <- e_add_l, !madd_opp. apply (bil_0_l _ (pr_e_bilinear P)). Qed.
  Lemma e_opp_r a b : pr_e P a (mopp b) = mopp (pr_e P a b).
  Proof. apply (madd_cancel_l _ _ (pr_e P a b)). rewrite <- e_add_r, !madd_opp. apply (bil_0_r _ (pr_e_bilinear P)). Qed.

  Lemma at_map_nth {A} {M : module K} (f : A -> M) (l : list A) d i : i < length l -> at_ (map f l) i = f (nth i l d).
  Proof. intros H. unfold at_. rewrite (nth_indep _ m0 (f d)) by (now rewrite map_length). apply map_nth. Qed.

  Theorem C62_batch_accepts_iff vk inputs proofs : vk_gamma_abc_g1 vk <> [] ->
    exists b, batch_verify_proof P seed rand_u128 (prepare_verifying_key vk) inputs proofs = Ok (Some b) /\
      (b = true <-> batch_lhs proofs = batch_rhs vk inputs proofs).
  Proof.
    intros Hne. unfold batch_verify_proof, prepare_verifying_key. cbn [pvk_vk pvk_gamma_g2_neg pvk_delta_g2_neg].
    set (n := length proofs). set (rs := batch_scalars P seed rand_u128 n).
    assert (Hrs : length rs = n) by apply batch_scalars_len.
    assert (Hnth : forall i d, i < n -> nth i rs d = rho i) by (intros; now apply batch_scalars_nth).
    assert (Hin : rmapM (fun p : list K * K => do g_ic <- batch_input P (vk_gamma_abc_g1 vk) (fst p); Ok (snd p *m g_ic)) (combine inputs rs)
      = Ok (map (fun p => snd p *m input_comb vk (fst p)) (combine inputs rs))).
    { generalize (combine inputs rs). intros l. induction l as [|[row r] l IH]; [reflexivity|].
      cbn [rmapM map fst snd]. rewrite batch_input_eq by auto. cbn [rbind]. now rewrite IH. }
    rewrite Hin. cbn [rbind]. unfold mml_chunk. cbn [fst snd].
    assert (Hla : length (zipw (fun pf r => r *m pf_a pf) proofs rs) = n).
    { rewrite zipw_length, Hrs. apply Nat.min_id. }
    rewrite Hla, map_length, Nat.eqb_refl. cbn [rbind length Nat.eqb].
    erewrite fexp_mul; [|apply fexp_mml; reflexivity|apply fexp_mml; now rewrite Hla, map_length].
    eexists. split; [reflexivity|]. rewrite meqb_spec.
    change (fold_right madd m0) with (msum (M := pGT P)).

    assert (H2 : msum (map (fun p : pG1 P * pG2 P => pr_e P (fst p) (snd p))
              (combine (zipw (fun pf r => r *m pf_a pf) proofs rs) (map pf_b proofs))) = batch_lhs proofs).
    { rewrite (msum_map_combine _ m0 m0), Hla, map_length. fold n. rewrite Nat.min_id. apply big_ext. intros i Hi. fold n in Hi. cbn [fst snd].
      rewrite (zipw_nth _ _ _ i pf0 f0) by lia. rewrite Hnth, (at_map_nth pf_a _ pf0) by auto. apply e_scale_l. }
    assert (Hc : fold_left madd (zipw (fun (pf : g16_proof P) (r : K) => r *m pf_c pf) proofs rs) m0 =
      big n (fun i => rho i *m at_ (map pf_c proofs) i)).
    { rewrite msum_fold_left, madd_0_l, (msum_zip _ pf0 f0), Hrs. fold n. rewrite Nat.min_id. apply big_ext. intros i Hi.
      rewrite Hnth, (at_map_nth pf_c _ pf0) by auto. reflexivity. }
    assert (Hi : fold_left madd (map (fun p : list K * K => snd p *m input_comb vk (fst p)) (combine inputs rs)) m0 =
      big (Nat.min (length inputs) n) (fun i => rho i *m input_comb vk (nth i inputs []))).
    { rewrite msum_fold_left, madd_0_l, (msum_map_combine _ [] f0), Hrs. apply big_ext. intros i Hi. cbn [fst snd].
      rewrite Hnth by lia. reflexivity. }
    assert (Hs : fold_left fadd rs f0 = fbig n rho).
    { rewrite fold_fadd. unfold rs. rewrite batch_scalars_eq, fsum_map_seq. cbn [Nat.add]. change (fbig n (fun i => rho i)) with (fbig n rho). ring. }
    rewrite H2, Hc, Hi, Hs.
    match goal with |- ?X +m _ = m0 <-> _ => replace X with (mopp (batch_rhs vk inputs proofs)) end.
    - rewrite madd_comm. apply (msub_eq0 (batch_lhs proofs) (batch_rhs vk inputs proofs)).
    - unfold msum. cbn [combine map fold_right fst snd]. rewrite e_opp_l, !e_opp_r, madd_0_r, e_scale_l. unfold batch_rhs. fold n.
      rewrite !big_fscale, <- !(big_e_l (P := P)).
      rewrite (big_ext n (fun i => pr_e P (rho i *m _) _) (fun i => rho i *m pr_e P (at_ (map pf_c proofs) i) (vk_delta_g2 vk))) by (intros; apply e_scale_l).
      rewrite (big_ext _ (fun i => pr_e P (rho i *m _) _) (fun i => rho i *m pr_e P (input_comb vk (nth i inputs [])) (vk_gamma_g2 vk))) by (intros; apply e_scale_l).
      generalize (fbig n rho *m pr_e P (vk_alpha_g1 vk) (vk_beta_g2 vk)).
      generalize (big n (fun i => rho i *m pr_e P (at_ (map pf_c proofs) i) (vk_delta_g2 vk))).
      generalize (big (Nat.min (length inputs) n) (fun i => rho i *m pr_e P (input_comb vk (nth i inputs [])) (vk_gamma_g2 vk))).
      intros. module_norm; ring.
  Qed.

  Theorem C62_batch_complete vk inputs proofs : vk_gamma_abc_g1 vk <> [] -> Forall2 (g16_valid vk) inputs proofs ->
    batch_verify_proof P seed rand_u128 (prepare_verifying_key vk) inputs proofs = Ok (Some true).
  Proof.
    intros Hne HF. destruct (C62_batch_accepts_iff vk inputs proofs Hne) as [b [-> Hb]]. do 2 f_equal. apply Hb.
    pose proof (Forall2_len HF) as Hl. unfold batch_lhs, batch_rhs. rewrite Hl, Nat.min_id, <- !big_add. apply big_ext. intros i Hi.
    assert (Hv : g16_valid vk (nth i inputs []) (nth i proofs pf0)).
    { clear Hne Hb b Hl. revert i Hi. induction HF as [|row pf inputs proofs H HF IH]; intros i Hi; [cbn in Hi; lia|].
      destruct i as [|i]; [exact H|]. apply IH. cbn in Hi. lia. }
    rewrite (at_map_nth pf_a _ pf0), (at_map_nth pf_b _ pf0), (at_map_nth pf_c _ pf0), Hv by auto.
    rewrite !mscale_add_r. reflexivity.
  Qed.

  (** a verifying key without bases: a panic as soon as there is an input and a proof *)
  Theorem C62_no_bases_panics pvk row inputs pf proofs : vk_gamma_abc_g1 (pvk_vk pvk) = [] ->
    batch_verify_proof P seed rand_u128 pvk (row :: inputs) (pf :: proofs) = Panic.
  Proof.
    intros H. unfold batch_verify_proof. rewrite batch_scalars_eq. cbn [length seq map combine rmapM]. unfold batch_input.
    cbn [fst snd]. rewrite H. reflexivity.
  Qed.

  (** ** C63 *)
  (** inputs without a proof are not checked; in particular nothing is when there are no proofs *)
  Theorem C63_inputs_without_proof_refuted vk inputs more proofs : vk_gamma_abc_g1 vk <> [] -> length inputs = length proofs ->
    batch_verify_proof P seed rand_u128 (prepare_verifying_key vk) (inputs ++ more) proofs =
    batch_verify_proof P seed rand_u128 (prepare_verifying_key vk) inputs proofs.
  Proof.
    intros Hne Hl. unfold batch_verify_proof. cbn [prepare_verifying_key pvk_vk].
    assert (Hc : combine (inputs ++ more) (batch_scalars P seed rand_u128 (length proofs)) = combine inputs (batch_scalars P seed rand_u128 (length proofs))).
    { assert (Hs : length inputs = length (batch_scalars P seed rand_u128 (length proofs))) by (now rewrite batch_scalars_len).
      revert Hs. generalize (batch_scalars P seed rand_u128 (length proofs)). clear. induction inputs as [|x inputs IH]; intros [|r l] Hs; cbn in Hs; try discriminate.
      - cbn. now destruct more.
      - cbn. f_equal. apply IH. lia. }
    rewrite Hc. reflexivity.
  Qed.
  Theorem C63_no_proofs_refuted vk inputs : vk_gamma_abc_g1 vk <> [] ->
    batch_verify_proof P seed rand_u128 (prepare_verifying_key vk) inputs [] = Ok (Some true).
  Proof. intros H. change inputs with ([] ++ inputs). rewrite C63_inputs_without_proof_refuted by auto. apply C62_batch_complete; auto. Qed.

  (** The forger: it uses the verifying key, the inputs and the scalars, which do not depend on the proofs. *)
  Definition batch_forger vk inputs : list (g16_proof P) :=
    mk_g16_proof (finv (rho 0) *m (fbig (length inputs) rho *m vk_alpha_g1 vk)) (vk_beta_g2 vk) m0 ::
    mk_g16_proof (finv (rho 1) *m big (length inputs) (fun i => rho i *m input_comb vk (nth i inputs []))) (vk_gamma_g2 vk) m0 ::
    repeat pf0 (length inputs - 2).

  Theorem C63_forged_refuted vk inputs : vk_gamma_abc_g1 vk <> [] -> 2 <= length inputs -> rho 0 <> f0 -> rho 1 <> f0 ->
    length (batch_forger vk inputs) = length inputs /\
    batch_verify_proof P seed rand_u128 (prepare_verifying_key vk) inputs (batch_forger vk inputs) = Ok (Some true).
  Proof.
    intros Hne Hl H0 H1. assert (Hlen : length (batch_forger vk inputs) = length inputs).
    { unfold batch_forger. cbn [length]. rewrite repeat_length. lia. }
    split; [exact Hlen|]. destruct (C62_batch_accepts_iff vk inputs (batch_forger vk inputs) Hne) as [b [-> Hb]]. do 2 f_equal. apply Hb.
    unfold batch_lhs, batch_rhs. rewrite Hlen, Nat.min_id.
    set (n := length inputs) in *.
    rewrite (big_ext n (fun i => rho i *m pr_e P (at_ (map pf_c _) i) _) (fun _ => m0)).
    2: { intros i Hi. assert (Hz : at_ (map pf_c (batch_forger vk inputs)) i = m0).
      { unfold batch_forger, at_. destruct i as [|[|i]]; [reflexivity..|]. cbn [map nth].
        exact (eq_trans (map_nth pf_c (repeat pf0 _) pf0 i) (f_equal pf_c (nth_repeat pf0 _ i))). }
      rewrite Hz, (bil_0_l _ (pr_e_bilinear P)). apply mscale_0_r. }
    rewrite big_0, madd_0_r.
    destruct n as [|[|m]] eqn:En; [lia..|]. unfold batch_forger at 1 2. fold n.
    assert (Hm : length inputs - 2 = m) by (fold n; lia).
    rewrite big_S_l, big_S_l, (big_ext m _ (fun _ => m0)).
    2: { intros i Hi. cbn [map at_ nth].
      assert (Hz : nth i (map pf_a (repeat (pf0 : g16_proof P) (n - 2))) m0 = m0) by
        (exact (eq_trans (map_nth pf_a (repeat pf0 _) pf0 i) (f_equal pf_a (nth_repeat pf0 _ i)))).
      unfold at_. cbn [nth]. rewrite Hz, (bil_0_l _ (pr_e_bilinear P)). apply mscale_0_r. }
    rewrite big_0, madd_0_r. unfold at_. cbn [map nth pf_a pf_b].
    rewrite (e_scale_l P (finv (rho 0))), (e_scale_l P (finv (rho 1))), <- !mscale_mul.
    replace (rho 0 *f finv (rho 0)) with (f1 : K) by (field; auto). replace (rho 1 *f finv (rho 1)) with (f1 : K) by (field; auto).
    rewrite !mscale_1. f_equal.
    - rewrite e_scale_l, big_fscale. unfold n in En |- *. rewrite En. reflexivity.
    - rewrite <- big_e_l. rewrite En. apply big_ext. intros i _. apply e_scale_l.
  Qed.
  Lemma big_opp' {M : module K} n (F : nat -> M) : big n (fun i => mopp (F i)) = mopp (big n F).
  Proof. induction n; cbn [big]; [|rewrite IHn; module_norm; ring]. apply (madd_cancel_l _ _ m0). now rewrite madd_opp, madd_0_l. Qed.
  Lemma batch_defect vk inputs proofs : length inputs = length proofs ->
    (batch_lhs proofs = batch_rhs vk inputs proofs <->
     big (length proofs) (fun i => rho i *m defect vk (nth i inputs []) (nth i proofs pf0)) = m0).
  Proof.
    intros Hl. rewrite <- msub_eq0. match goal with |- ?a = m0 <-> ?b = m0 => replace b with a; [reflexivity|] end.
    unfold batch_lhs, batch_rhs, msub. rewrite Hl, Nat.min_id, <- !big_add, <- big_opp', <- big_add. apply big_ext. intros i Hi.
    rewrite (at_map_nth pf_a _ pf0), (at_map_nth pf_b _ pf0), (at_map_nth pf_c _ pf0) by auto. unfold defect.
    generalize (pr_e P (pf_a (nth i proofs pf0)) (pf_b (nth i proofs pf0))) (pr_e P (vk_alpha_g1 vk) (vk_beta_g2 vk))
     (pr_e P (input_comb vk (nth i inputs [])) (vk_gamma_g2 vk)) (pr_e P (pf_c (nth i proofs pf0)) (vk_delta_g2 vk)).
    intros. module_norm; ring.
  Qed.

  Theorem C63_single_proof_partial vk row pf : vk_gamma_abc_g1 vk <> [] -> rho 0 <> f0 ->
    batch_verify_proof P seed rand_u128 (prepare_verifying_key vk) [row] [pf] = Ok (Some true) <-> g16_valid vk row pf.
  Proof.
    intros Hne H0. destruct (C62_batch_accepts_iff vk [row] [pf] Hne) as [b [-> Hb]].
    rewrite batch_defect in Hb by auto. cbn [length big nth] in Hb. rewrite madd_0_l in Hb.
    rewrite <- defect_valid. transitivity (b = true); [split; congruence|]. rewrite Hb. split.
    - intros H. apply mscale_integral in H as [H|H]; [contradiction|auto].
    - intros ->. apply mscale_0_r.
  Qed.
End BatchFacts.

Lemma big_single {K : field} {M : module K} n i (x : M) : i < n ->
  big n (fun j => if Nat.eq_dec j i then x else m0) = x.
Proof.
  intros Hi. replace n with (i + S (n - S i)) by lia. rewrite big_split, big_S_l.
  rewrite (big_ext i _ (fun _ => m0)), (big_ext (n - S i) _ (fun _ => m0)).
  - rewrite !big_0, Nat.add_0_r. destruct (Nat.eq_dec i i); [|congruence]. now rewrite madd_0_l, madd_0_r.
  - intros j Hj. destruct (Nat.eq_dec (i + S j) i); [lia|reflexivity].
  - intros j Hj. destruct (Nat.eq_dec j i); [lia|reflexivity].
Qed.

(** If the scalars were drawn after the proofs: all other scalars being fixed, a batch with an invalid
    proof is accepted for at most one value of its scalar. *)
Theorem C63_few_scalars_partial R R' (P : pairing) (seed : N -> R) (seed' : N -> R') (rand : sampler R N) (rand' : sampler R' N)
    (vk : g16_vk P) inputs proofs i :
  vk_gamma_abc_g1 vk <> [] -> length inputs = length proofs -> i < length proofs ->
  (forall j, j <> i -> rho (P := P) seed rand j = rho seed' rand' j) -> rho (P := P) seed rand i <> rho seed' rand' i ->
  batch_verify_proof P seed rand (prepare_verifying_key vk) inputs proofs = Ok (Some true) ->
  batch_verify_proof P seed' rand' (prepare_verifying_key vk) inputs proofs = Ok (Some true) ->
  g16_valid vk (nth i inputs []) (nth i proofs pf0).
Proof.
  intros Hne Hl Hi Hj Hd H H'.
  destruct (C62_batch_accepts_iff seed rand vk inputs proofs Hne) as [b [E Hb]]. rewrite E in H. injection H as ->.
  destruct (C62_batch_accepts_iff seed' rand' vk inputs proofs Hne) as [b' [E' Hb']]. rewrite E' in H'. injection H' as ->.
  apply proj1 in Hb, Hb'. specialize (Hb eq_refl). specialize (Hb' eq_refl).
  rewrite batch_defect in Hb by auto. rewrite batch_defect in Hb' by auto.
  apply defect_valid. set (F := fun i => defect vk (nth i inputs []) (nth i proofs pf0)) in *.
  set (r := rho (P := P) seed rand) in *. set (r' := rho (P := P) seed' rand') in *.
  assert (Hs : big (length proofs) (fun j => (r j -f r' j) *m F j) = m0).
  { rewrite (big_ext _ _ (fun j => r j *m F j +m mopp (r' j *m F j))).
    - rewrite big_add, big_opp'. unfold F. rewrite Hb, Hb'. apply madd_opp.
    - intros j _. symmetry. apply scale_sub. }
  rewrite (big_ext _ _ (fun j => if Nat.eq_dec j i then (r i -f r' i) *m F i else m0)) in Hs.
  - rewrite big_single in Hs by auto. apply mscale_integral in Hs as [Hs|Hs]; [|exact Hs].
    exfalso. apply Hd. exact (proj1 (fsub_eq0 _ _ _) Hs).
  - intros j _. destruct (Nat.eq_dec j i) as [->|Hji]; [reflexivity|]. rewrite (Hj j Hji). fold r'. 
    replace (r' j -f r' j) with (f0 : pK P) by (symmetry; now apply (proj2 (fsub_eq0 _ _ _))). apply mscale_0_l.
Qed.

Print Assumptions C62_batch_accepts_iff.
Print Assumptions C62_batch_complete.
Print Assumptions C62_no_bases_panics.
Print Assumptions C63_inputs_without_proof_refuted.
Print Assumptions C63_no_proofs_refuted.
Print Assumptions C63_forged_refuted.
Print Assumptions C63_single_proof_partial.
Print Assumptions C63_few_scalars_partial.

(** A run with a counter as the generator: the scalars are 5, 6, ... *)
Definition ex_seed (n : N) : N := (n + 5)%N.
Definition ex_u128 (s : N) : N * N := (s, N.succ s).
Definition ex_batch inputs proofs := batch_verify_proof ZPair ex_seed ex_u128 (prepare_verifying_key ex_vk) inputs proofs.
Example C62_example :
  ex_batch ex_inputs ex_pfs = Ok (Some true) /\
  ex_batch [zl [3]%Z; zl [2]%Z] ex_pfs = Ok (Some false) /\
  ex_batch [zl [3]%Z] ex_pfs = Ok (Some false) /\
  ex_batch [zl [3]%Z; zl [1; 9]%Z] ex_pfs = Ok (Some true) /\
  vk_gamma_abc_g1 ex_vk <> [].
Proof. repeat split; try (vm_compute; reflexivity). discriminate. Qed.
Example C62_example_scalars : map (rho (P := ZPair) ex_seed ex_u128) [0; 1; 2] = [zq 5; zq 6; zq 7].
Proof. vm_compute. reflexivity. Qed.

(** forged proofs for three rows, of which the first is not valid *)
Definition ex_forged := batch_forger (P := ZPair) ex_seed ex_u128 ex_vk [zl [8]%Z; zl [2]%Z; zl [4]%Z].
Example C63_example :
  ex_batch [zl [8]%Z; zl [2]%Z; zl [4]%Z] ex_forged = Ok (Some true) /\
  ~ g16_valid ex_vk (zl [8]%Z) (nth 0 ex_forged pf0) /\ ~ g16_valid ex_vk (zl [4]%Z) (nth 2 ex_forged pf0) /\
  ex_batch [zl [8]%Z; zl [2]%Z] [] = Ok (Some true).
Proof. split; [vm_compute; reflexivity|]. split; [intros H; vm_compute in H; discriminate|]. split; [intros H; vm_compute in H; discriminate|]. vm_compute. reflexivity. Qed.

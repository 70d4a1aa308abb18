(** Properties C01 - C08: inner products and commitments. *)
Require Import List Arith NArith ZArith Lia Bool.
Import ListNotations.
Require Import Verif.Outcome Verif.Algebra Verif.Zp Verif.Rust Verif.InnerProducts Verif.Commitments
  Verif.Gipa Verif.Sipp Verif.Spec Verif.ListFacts Verif.RustFacts Verif.InnerProductFacts Verif.CommitFacts.

(** A parallel environment with three threads and lopsided reduction trees, used in the Examples. *)
Definition ex_env : penv :=
  {| threads := 3; shape := fun n => RNode 1 RLeaf (RNode 0 RLeaf (RNode (n - 2) RLeaf RLeaf)) |}.
Definition zl (l : list Z) : list zp := map zq l.

(** ** C01 *)
Theorem C01_pairing_inner_product (P : pairing) (E : penv) (l : list (pG1 P)) (r : list (pG2 P)) :
  1 <= threads E -> length l = length r -> pairing_ip P E l r = Ok (pairing_sum P l r).
Proof. intros. rewrite pairing_ip_dot, dot_pairing_sum by auto. reflexivity. Qed.
Print Assumptions C01_pairing_inner_product.

Corollary C01_schedule_independent (P : pairing) (E E' : penv) (l : list (pG1 P)) (r : list (pG2 P)) :
  1 <= threads E -> 1 <= threads E' -> pairing_ip P E l r = pairing_ip P E' l r.
Proof.
  intros H H'. destruct (Nat.eq_dec (length l) (length r)).
  - now rewrite !C01_pairing_inner_product.
  - now rewrite !pairing_ip_err.
Qed.
Print Assumptions C01_schedule_independent.

Example C01_example :
  pairing_ip ZPair ex_env (zl [2; 3; 4; 5; 6]%Z) (zl [7; 8; 9; 10; 11]%Z) = Ok (zq 190).
Proof. vm_compute. reflexivity. Qed.
Example C01_example_spec : pairing_sum ZPair (zl [2; 3; 4; 5; 6]%Z) (zl [7; 8; 9; 10; 11]%Z) = zq 190.
Proof. vm_compute. reflexivity. Qed.

(** ** C02 *)
Theorem C02_pairing_outcome (P : pairing) (E : penv) (l : list (pG1 P)) (r : list (pG2 P)) :
  1 <= threads E ->
  (length l <> length r /\ pairing_ip P E l r = Err (IPMessageLengthInvalid (length l) (length r))) \/
  (length l = length r /\ pairing_ip P E l r = Ok (pairing_sum P l r)).
Proof.
  intros H. destruct (Nat.eq_dec (length l) (length r)).
  - right. split; [auto|]. now apply C01_pairing_inner_product.
  - left. split; [auto|]. now apply pairing_ip_err.
Qed.
Print Assumptions C02_pairing_outcome.

Theorem C02_multiexp_outcome (K : field) (G : module K) (l : list G) (r : list K) :
  (length l <> length r /\ multiexp_ip G l r = Err (IPMessageLengthInvalid (length l) (length r))) \/
  (length l = length r /\ multiexp_ip G l r = Ok (msm_sum l r)).
Proof.
  destruct (Nat.eq_dec (length l) (length r)).
  - right. split; [auto|]. now rewrite multiexp_ip_dot, dot_msm_sum.
  - left. split; [auto|]. now apply multiexp_ip_err.
Qed.
Print Assumptions C02_multiexp_outcome.

Theorem C02_scalar_outcome (K : field) (E : penv) (l r : list K) :
  (length l <> length r /\ scalar_ip E l r = Err (IPMessageLengthInvalid (length l) (length r))) \/
  (length l = length r /\ scalar_ip E l r = Ok (scalar_sum l r)).
Proof.
  destruct (Nat.eq_dec (length l) (length r)).
  - right. split; [auto|]. rewrite scalar_ip_dot by auto. f_equal. now apply dot_scalar_sum.
  - left. split; [auto|]. now apply scalar_ip_err.
Qed.
Print Assumptions C02_scalar_outcome.

Example C02_example_err : scalar_ip (K := ZP) ex_env (zl [1; 2]%Z) (zl [1]%Z) = Err (IPMessageLengthInvalid 2 1).
Proof. reflexivity. Qed.
Example C02_example_ok : scalar_ip (K := ZP) ex_env (zl [1; 2; 3]%Z) (zl [4; 5; 6]%Z) = Ok (zq 32).
Proof. vm_compute. reflexivity. Qed.
Example C02_example_msm : multiexp_ip ZM (zl [1; 2; 3]%Z) (zl [4; 5; 6]%Z) = Ok (zq 32).
Proof. vm_compute. reflexivity. Qed.

(** ** C03: bilinearity and splitting.  The common part, for a lawful inner product. *)
Section Bilinear.
  Context {K : field} {A B C : module K} (ip : list A -> list B -> res C) (theta : A -> B -> C).
  Hypothesis L : lin_ip ip theta.

  Definition ip_bilinear : Prop := forall (x : K) (l l' : list A) (r r' : list B),
    length l = length r ->
    exists v, ip l r = Ok v /\
      (length l' = length r -> exists v', ip l' r = Ok v' /\ ip (vadd l l') r = Ok (v +m v')) /\
      (length l = length r' -> exists v', ip l r' = Ok v' /\ ip l (vadd r r') = Ok (v +m v')) /\
      ip (vscale x l) r = Ok (x *m v) /\ ip l (vscale x r) = Ok (x *m v) /\
      (length l' = length r' -> exists v', ip l' r' = Ok v' /\ ip (l ++ l') (r ++ r') = Ok (v +m v')).

  Lemma lin_ip_bilinear : ip_bilinear.
  Proof.
    intros x l l' r r' H. exists (dot theta l r). pose proof (li_bil _ _ L) as Bl.
    split; [now apply (li_ip _ _ L)|].
    split; [|split; [|split; [|split]]].
    - intros H'. exists (dot theta l' r). rewrite !(li_ip _ _ L) by (rewrite ?vadd_length; auto).
      split; [reflexivity|]. f_equal. apply dot_vadd_l; auto; congruence.
    - intros H'. exists (dot theta l r'). rewrite !(li_ip _ _ L) by (rewrite ?vadd_length; auto).
      split; [reflexivity|]. f_equal. apply dot_vadd_r; auto; congruence.
    - rewrite (li_ip _ _ L) by (now rewrite vscale_length). f_equal. now apply dot_vscale_l.
    - rewrite (li_ip _ _ L) by (now rewrite vscale_length). f_equal. now apply dot_vscale_r.
    - intros H'. exists (dot theta l' r'). rewrite !(li_ip _ _ L) by (rewrite ?app_length; auto).
      split; [reflexivity|]. f_equal. now apply dot_app.
  Qed.
End Bilinear.

Theorem C03_pairing_bilinear (P : pairing) (E : penv) : 1 <= threads E -> ip_bilinear (pairing_ip P E).
Proof. intros H. exact (lin_ip_bilinear _ _ (pairing_ip_law P E H)). Qed.
Print Assumptions C03_pairing_bilinear.
Theorem C03_multiexp_bilinear (K : field) (G : module K) : ip_bilinear (B := fmod K) (multiexp_ip G).
Proof. exact (lin_ip_bilinear _ _ (multiexp_ip_law G)). Qed.
Print Assumptions C03_multiexp_bilinear.
Theorem C03_scalar_bilinear (K : field) (E : penv) :
  ip_bilinear (A := fmod K) (B := fmod K) (C := fmod K) (scalar_ip E).
Proof. exact (lin_ip_bilinear _ _ (scalar_ip_law E)). Qed.
Print Assumptions C03_scalar_bilinear.

Example C03_example :
  pairing_ip ZPair ex_env (vadd (M := ZM) (zl [2; 3; 4]%Z) (zl [1; 1; 9]%Z)) (zl [7; 8; 9]%Z) = Ok (zq (74 + 96)).
Proof. vm_compute. reflexivity. Qed.

(** ** C04 *)
Theorem C04_product_of_pairings_with_coeffs (P : pairing) (E : penv)
    (a : list (pG1 P)) (b : list (pG2 P)) (r : list (pK P)) :
  1 <= threads E -> length a = length b -> length a <= length r ->
  product_of_pairings_with_coeffs P E a b r =
    Ok (big (length a) (fun i => fat r i *m pr_e P (at_ a i) (at_ b i))).
Proof.
  intros HE Hab Har. rewrite sipp_product_dot by auto. f_equal.
  rewrite dot_big by (rewrite zipw_length; lia). rewrite zipw_length, Nat.min_l by auto.
  apply big_ext. intros i Hi. unfold at_ at 1. rewrite (zipw_nth _ a r i m0 f0 m0) by lia.
  apply e_scale_l.
Qed.
Print Assumptions C04_product_of_pairings_with_coeffs.

Theorem C04_product_of_pairings (P : pairing) (E : penv) (a : list (pG1 P)) (b : list (pG2 P)) :
  1 <= threads E -> length a = length b -> product_of_pairings P E a b = Ok (pairing_sum P a b).
Proof. intros. rewrite product_of_pairings_dot, dot_pairing_sum by auto. reflexivity. Qed.
Print Assumptions C04_product_of_pairings.

Example C04_example : product_of_pairings_with_coeffs ZPair ex_env
  (zl [2; 3; 4; 5]%Z) (zl [7; 8; 9; 10]%Z) (zl [1; 2; 3; 1; 99]%Z) = Ok (zq 220).
Proof. vm_compute. reflexivity. Qed.

(** ** C05 *)
Definition commit_homomorphic {R} {K : field} {Msg Key : module K} {Out : carrier K} (C : dhc R Msg Key Out) : Prop :=
  (forall k m m', length k = length m -> length m = length m' ->
     exists x y, dh_commit C k m = Ok x /\ dh_commit C k m' = Ok y /\ dh_commit C k (vadd m m') = Ok (cadd x y)) /\
  (forall k k' m, length k = length m -> length k = length k' ->
     exists x y, dh_commit C k m = Ok x /\ dh_commit C k' m = Ok y /\ dh_commit C (vadd k k') m = Ok (cadd x y)) /\
  (forall s k m, length k = length m ->
     exists x, dh_commit C k m = Ok x /\ dh_commit C k (vscale s m) = Ok (cscale s x)) /\
  (forall s k m, length k = length m ->
     exists x, dh_commit C k m = Ok x /\ dh_commit C (vscale s k) m = Ok (cscale s x)).

Lemma lin_commit_homomorphic {R K} {Msg Key : module K} {Out} (C : dhc R Msg Key Out) {X : module K} den phi :
  lin_commit (X := X) C den phi -> commit_homomorphic C.
Proof.
  intros L. repeat split.
  - eapply hom_msg_add; eauto.
  - eapply hom_key_add; eauto.
  - eapply hom_msg_scale; eauto.
  - eapply hom_key_scale; eauto.
Qed.

Theorem C05_pedersen R (K : field) (G : module K) (rand : sampler R G) : commit_homomorphic (pedersen G rand).
Proof. exact (lin_commit_homomorphic _ _ _ (pedersen_law G rand)). Qed.
Print Assumptions C05_pedersen.
Theorem C05_afgho_g1 R (P : pairing) E (rand : sampler R (pG2 P)) :
  1 <= threads E -> commit_homomorphic (afgho_g1 P E rand).
Proof. intros H. exact (lin_commit_homomorphic _ _ _ (afgho_g1_law P E H rand)). Qed.
Print Assumptions C05_afgho_g1.
Theorem C05_afgho_g2 R (P : pairing) E (rand : sampler R (pG1 P)) :
  1 <= threads E -> commit_homomorphic (afgho_g2 P E rand).
Proof. intros H. exact (lin_commit_homomorphic _ _ _ (afgho_g2_law P E H rand)). Qed.
Print Assumptions C05_afgho_g2.

Theorem C05_identity R (K : field) (T : module K) (k : list (unitmod K)) (m m' : list T) (s : K) :
  length m = length m' ->
  exists x y, dh_commit (identity (R := R) T) k m = Ok x /\ dh_commit (identity (R := R) T) k m' = Ok y /\
    dh_commit (identity (R := R) T) k (vadd m m') = Ok (cadd x y) /\
    dh_commit (identity (R := R) T) k (vscale s m) = Ok (cscale s x).
Proof.
  intros H. exists m, m'. repeat split; cbn; f_equal.
  - now apply vadd_zipw.
  - apply vscale_map.
Qed.
Print Assumptions C05_identity.

Definition ex_rand : sampler Z zp := fun n => (zq n, (n + 1)%Z).

Example C05_example :
  dh_commit (afgho_g1 ZPair ex_env ex_rand) (zl [3; 5]%Z) (vadd (M := ZM) (zl [1; 2]%Z) (zl [10; 20]%Z))
  = Ok (zq (13 + 130)).
Proof. vm_compute. reflexivity. Qed.

(** ** C06 *)
Lemma dh_verify_of_commit {R K} {Msg Key : module K} {Out} (C : dhc R Msg Key Out) k m com c :
  dh_commit C k m = Ok c ->
  dh_verify C k m com = Ok (ceqb c com).
Proof. intros H. unfold dh_verify. now rewrite H. Qed.

Definition verify_exact {K : field} {Out : carrier K} (v : res bool) (same_length : Prop) (value com : Out) (e : error) : Prop :=
  (v = Ok true <-> same_length /\ com = value) /\
  (v = Ok false <-> same_length /\ com <> value) /\
  (v = Err e <-> ~ same_length) /\
  (v = Ok true \/ v = Ok false \/ v = Err e).

Lemma verify_exact_intro {K : field} {Out : carrier K} (c : res Out) (n n' : nat) value com e :
  (n <> n' /\ c = Err e) \/ (n = n' /\ c = Ok value) ->
  verify_exact (do c <- c; Ok (ceqb c com)) (n = n') value com e.
Proof.
  intros [[H ->]|[H ->]]; unfold verify_exact; cbn [rbind].
  - intuition (try discriminate; try congruence; auto).
  - destruct (ceqb value com) eqn:Eq.
    + apply ceqb_spec in Eq. intuition (try discriminate; try congruence; auto).
    + assert (value <> com) by (intros Hc; apply ceqb_spec in Hc; congruence).
      intuition (try discriminate; try congruence; auto).
Qed.

Theorem C06_pedersen R (K : field) (G : module K) (rand : sampler R G) (k : list G) (m : list (fmod K)) (com : G) :
  verify_exact (Out := mod_carrier G) (dh_verify (pedersen G rand) k m com)
    (length k = length m) (msm_sum k (m : list K)) com (IPMessageLengthInvalid (length k) (length m)).
Proof. apply verify_exact_intro. apply (C02_multiexp_outcome K G k m). Qed.
Print Assumptions C06_pedersen.

Theorem C06_afgho_g1 R (P : pairing) E (rand : sampler R (pG2 P)) (k : list (pG2 P)) (m : list (pG1 P)) (com : pGT P) :
  1 <= threads E ->
  verify_exact (Out := mod_carrier (pGT P)) (dh_verify (afgho_g1 P E rand) k m com)
    (length m = length k) (pairing_sum P m k) com (IPMessageLengthInvalid (length m) (length k)).
Proof. intros H. apply verify_exact_intro. now apply C02_pairing_outcome. Qed.
Print Assumptions C06_afgho_g1.

Theorem C06_afgho_g2 R (P : pairing) E (rand : sampler R (pG1 P)) (k : list (pG1 P)) (m : list (pG2 P)) (com : pGT P) :
  1 <= threads E ->
  verify_exact (Out := mod_carrier (pGT P)) (dh_verify (afgho_g2 P E rand) k m com)
    (length k = length m) (pairing_sum P k m) com (IPMessageLengthInvalid (length k) (length m)).
Proof. intros H. apply verify_exact_intro. now apply C02_pairing_outcome. Qed.
Print Assumptions C06_afgho_g2.

Theorem C06_identity R (K : field) (T : module K) (k : list (unitmod K)) (m : list T) (com : list T) :
  (dh_verify (identity (R := R) T) k m com = Ok true <-> com = m) /\
  (dh_verify (identity (R := R) T) k m com = Ok false <-> com <> m).
Proof.
  unfold dh_verify. cbn [dh_commit identity rbind].
  destruct (ceqb (c := identity_output T) m com) eqn:Eq.
  - apply ceqb_spec in Eq. split; split; intros H; try discriminate; try congruence; auto.
  - assert (m <> com) by (intros H; apply (ceqb_spec _ (identity_output T)) in H; congruence).
    split; split; intros H'; try discriminate; try congruence; auto.
Qed.
Print Assumptions C06_identity.

Example C06_example_true : dh_verify (pedersen ZM ex_rand) (zl [3; 5]%Z) (zl [2; 4]%Z) (zq 26) = Ok true.
Proof. vm_compute. reflexivity. Qed.
Example C06_example_false : dh_verify (pedersen ZM ex_rand) (zl [3; 5]%Z) (zl [2; 4]%Z) (zq 27) = Ok false.
Proof. vm_compute. reflexivity. Qed.

(** ** C07 *)
Definition vdiff {K} {M : module K} (m m' : list M) : list M := vadd m (vscale (fopp f1) m').

Lemma verify_length {R K} {Msg Key : module K} {Out} (C : dhc R Msg Key Out) k m com :
  (forall k m, length k <> length m -> exists e, dh_commit C k m = Err e) ->
  dh_verify C k m com = Ok true -> length k = length m.
Proof.
  intros He H. destruct (Nat.eq_dec (length k) (length m)) as [|Hn]; auto.
  destruct (He k m Hn) as [e Ee]. unfold dh_verify in H. rewrite Ee in H. discriminate.
Qed.

Theorem C07_pedersen R (K : field) (G : module K) (rand : sampler R G) (k : list G) (m m' : list (fmod K)) (com : G) :
  m <> m' -> dh_verify (pedersen G rand) k m com = Ok true -> dh_verify (pedersen G rand) k m' com = Ok true ->
  (exists i, i < length k /\ at_ (vdiff m m') i <> m0) /\ msm_sum k (vdiff m m' : list K) = m0.
Proof.
  intros Hne H H'.
  assert (He : forall k m, length k <> length m -> exists e, dh_commit (pedersen G rand) k m = Err e)
    by (intros; eexists; now apply multiexp_ip_err).
  assert (Hl := verify_length _ _ _ _ He H). assert (Hl' := verify_length _ _ _ _ He H').
  split.
  - rewrite Hl. apply vsub_nonzero; [congruence|auto].
  - assert (Hd : length k = length (vdiff m m')) by (unfold vdiff; rewrite vadd_length; auto).
    rewrite <- dot_msm_sum by exact Hd.
    exact (binding_relation _ _ _ (pedersen_law G rand) k m m' com Hl Hl' H H').
Qed.
Print Assumptions C07_pedersen.

Theorem C07_afgho_g1 R (P : pairing) E (rand : sampler R (pG2 P)) (k : list (pG2 P)) (m m' : list (pG1 P)) (com : pGT P) :
  1 <= threads E -> m <> m' ->
  dh_verify (afgho_g1 P E rand) k m com = Ok true -> dh_verify (afgho_g1 P E rand) k m' com = Ok true ->
  (exists i, i < length k /\ at_ (vdiff m m') i <> m0) /\ pairing_sum P (vdiff m m') k = m0.
Proof.
  intros HE Hne H H'.
  assert (He : forall k m, length k <> length m -> exists e, dh_commit (afgho_g1 P E rand) k m = Err e)
    by (intros; eexists; now apply pairing_ip_err, not_eq_sym).
  assert (Hl := verify_length _ _ _ _ He H). assert (Hl' := verify_length _ _ _ _ He H').
  split.
  - rewrite Hl. apply vsub_nonzero; [congruence|auto].
  - rewrite <- dot_pairing_sum by (unfold vdiff; rewrite vadd_length; auto). rewrite dot_flip.
    exact (binding_relation _ _ _ (afgho_g1_law P E HE rand) k m m' com Hl Hl' H H').
Qed.
Print Assumptions C07_afgho_g1.

Theorem C07_afgho_g2 R (P : pairing) E (rand : sampler R (pG1 P)) (k : list (pG1 P)) (m m' : list (pG2 P)) (com : pGT P) :
  1 <= threads E -> m <> m' ->
  dh_verify (afgho_g2 P E rand) k m com = Ok true -> dh_verify (afgho_g2 P E rand) k m' com = Ok true ->
  (exists i, i < length k /\ at_ (vdiff m m') i <> m0) /\ pairing_sum P k (vdiff m m') = m0.
Proof.
  intros HE Hne H H'.
  assert (He : forall k m, length k <> length m -> exists e, dh_commit (afgho_g2 P E rand) k m = Err e)
    by (intros; eexists; now apply pairing_ip_err).
  assert (Hl := verify_length _ _ _ _ He H). assert (Hl' := verify_length _ _ _ _ He H').
  split.
  - rewrite Hl. apply vsub_nonzero; [congruence|auto].
  - rewrite <- dot_pairing_sum by (unfold vdiff; rewrite vadd_length; auto).
    exact (binding_relation _ _ _ (afgho_g2_law P E HE rand) k m m' com Hl Hl' H H').
Qed.
Print Assumptions C07_afgho_g2.

Theorem C07_identity_perfectly_binding R (K : field) (T : module K) (k k' : list (unitmod K)) (m m' : list T) (com : list T) :
  dh_verify (identity (R := R) T) k m com = Ok true -> dh_verify (identity (R := R) T) k' m' com = Ok true -> m = m'.
Proof. intros H H'. apply C06_identity in H, H'. congruence. Qed.
Print Assumptions C07_identity_perfectly_binding.

(** in a group with a known relation between the keys such a pair exists *)
Example C07_example :
  dh_verify (pedersen ZM ex_rand) (zl [3; 5]%Z) (zl [2; 4]%Z) (zq 26) = Ok true /\
  dh_verify (pedersen ZM ex_rand) (zl [3; 5]%Z) (zl [7; 1]%Z) (zq 26) = Ok true.
Proof. split; vm_compute; reflexivity. Qed.

(** ** C08: the i-th key is the i-th sample *)
Fixpoint nth_state {R A} (s : sampler R A) (rng : R) (i : nat) : R :=
  match i with O => rng | S i => nth_state s (snd (s rng)) i end.

Lemma random_generators_spec {R A} (s : sampler R A) n : forall rng,
  random_generators s rng n = (map (fun i => fst (s (nth_state s rng i))) (seq 0 n), nth_state s rng n).
Proof.
  induction n; intros rng; cbn [random_generators seq map nth_state]; [reflexivity|].
  destruct (s rng) as [x rng'] eqn:Es. rewrite IHn. cbn [fst snd]. rewrite <- seq_shift, map_map.
  cbn [nth_state]. now rewrite Es.
Qed.

Definition setup_samples {R A} (res_setup : res (list A * R)) (s : sampler R A) (rng : R) (n : nat) : Prop :=
  exists keys, res_setup = Ok (keys, nth_state s rng n) /\ length keys = n /\
    forall i, i < n -> nth_error keys i = Some (fst (s (nth_state s rng i))).

Lemma setup_samples_intro {R A} (s : sampler R A) rng n :
  setup_samples (Ok (random_generators s rng n)) s rng n.
Proof.
  rewrite random_generators_spec. eexists. split; [reflexivity|]. split; [now rewrite map_length, seq_length|].
  intros i Hi. apply (map_nth_error (fun i => fst (s (nth_state s rng i))) i (seq 0 n)).
  rewrite (nth_error_nth' _ 0) by (now rewrite seq_length). now rewrite seq_nth.
Qed.

Theorem C08_pedersen R (K : field) (G : module K) (rand : sampler R G) rng n :
  setup_samples (dh_setup (pedersen G rand) rng n) rand rng n.
Proof. apply setup_samples_intro. Qed.
Print Assumptions C08_pedersen.
Theorem C08_afgho_g1 R (P : pairing) E (rand : sampler R (pG2 P)) rng n :
  setup_samples (dh_setup (afgho_g1 P E rand) rng n) rand rng n.
Proof. apply setup_samples_intro. Qed.
Print Assumptions C08_afgho_g1.
Theorem C08_afgho_g2 R (P : pairing) E (rand : sampler R (pG1 P)) rng n :
  setup_samples (dh_setup (afgho_g2 P E rand) rng n) rand rng n.
Proof. apply setup_samples_intro. Qed.
Print Assumptions C08_afgho_g2.
Theorem C08_identity R (K : field) (T : module K) (rng : R) n :
  exists keys, dh_setup (identity T) rng n = Ok (keys, rng) /\ length keys = n.
Proof. exists (repeat tt n). split; [reflexivity|apply repeat_length]. Qed.
Print Assumptions C08_identity.

Definition setup_total {R K} {Msg Key : module K} {Out} (C : dhc R Msg Key Out) : Prop :=
  forall rng n, exists keys rng', dh_setup C rng n = Ok (keys, rng') /\ length keys = n.

Theorem C08_setups_total R (K : field) (G : module K) (P : pairing) E (r : sampler R G)
    (r1 : sampler R (pG1 P)) (r2 : sampler R (pG2 P)) :
  setup_total (pedersen G r) /\ setup_total (afgho_g1 P E r2) /\ setup_total (afgho_g2 P E r1) /\
  setup_total (identity (R := R) G).
Proof.
  repeat split; intros rng n.
  - destruct (C08_pedersen R K G r rng n) as [k [H [Hl _]]]. eauto.
  - destruct (C08_afgho_g1 R P E r2 rng n) as [k [H [Hl _]]]. eauto.
  - destruct (C08_afgho_g2 R P E r1 rng n) as [k [H [Hl _]]]. eauto.
  - destruct (C08_identity R K G rng n) as [k [H Hl]]. eauto.
Qed.
Print Assumptions C08_setups_total.

Theorem C08_gipa_setup R (K : field) (MA MB MT KA KB KT : module K) (OA OB OT : carrier K)
    (LMC : dhc R MA KA OA) (RMC : dhc R MB KB OB) (IPC : dhc R MT KT OT) rng n :
  setup_total LMC -> setup_total RMC -> setup_total IPC ->
  exists ka kb kt rng', gipa_setup LMC RMC IPC rng n = Ok (ka, kb, kt, rng') /\ length ka = n /\ length kb = n /\
    exists rng1 rng2, dh_setup LMC rng n = Ok (ka, rng1) /\ dh_setup RMC rng1 n = Ok (kb, rng2) /\
      dh_setup IPC rng2 1 = Ok ([kt], rng').
Proof.
  intros H1 H2 H3. destruct (H1 rng n) as [ka [rng1 [E1 L1]]]. destruct (H2 rng1 n) as [kb [rng2 [E2 L2]]].
  destruct (H3 rng2 1) as [kt [rng3 [E3 L3]]]. destruct kt as [|kt [|? ?]]; try discriminate.
  exists ka, kb, kt, rng3. unfold gipa_setup. rewrite E1. cbn [rbind]. rewrite E2. cbn [rbind]. rewrite E3.
  cbn [rbind last_opt runwrap]. repeat split; auto. eauto.
Qed.
Print Assumptions C08_gipa_setup.

Example C08_gipa_example :
  gipa_setup (afgho_g1 ZPair ex_env ex_rand) (afgho_g2 ZPair ex_env ex_rand) (identity ZM) 10%Z 2
  = Ok (zl [10; 11]%Z, zl [12; 13]%Z, tt, 14%Z).
Proof. vm_compute. reflexivity. Qed.

Example C08_example : dh_setup (pedersen ZM ex_rand) 40%Z 3 = Ok (zl [40; 41; 42]%Z, 43%Z).
Proof. vm_compute. reflexivity. Qed.

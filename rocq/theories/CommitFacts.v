(** Doubly homomorphic commitments: laws and instances (C05-C08). *)
Require Import List Arith Lia Bool Field.
Import ListNotations.
Require Import Verif.Outcome Verif.Algebra Verif.Rust Verif.Spec Verif.ListFacts Verif.RustFacts
  Verif.InnerProducts Verif.Commitments Verif.InnerProductFacts Verif.Ssm.

(** A vector commitment given by a bilinear map [phi], with values in [X] embedded in [Out]. *)
Record lin_commit {R} {K : field} {Msg Key : module K} {Out : carrier K} (C : dhc R Msg Key Out)
  {X : module K} (den : X -> Out) (phi : Key -> Msg -> X) : Prop := {
  lc_commit : forall k m, length k = length m -> dh_commit C k m = Ok (den (dot phi k m));
  lc_bil : bilinear phi;
  lc_add : forall a b, den (a +m b) = cadd (den a) (den b);
  lc_scale : forall x a, den (x *m a) = cscale x (den a);
  lc_inj : forall a b, den a = den b -> a = b
}.

(** A commitment to single values, linear in the value. *)
Record ip_commit {R} {K : field} {Msg Key : module K} {Out : carrier K} (C : dhc R Msg Key Out)
  {X : module K} (den : X -> Out) (psi : Key -> Msg -> X) : Prop := {
  ic_commit : forall k v, dh_commit C [k] [v] = Ok (den (psi k v));
  ic_add : forall k a b, psi k (a +m b) = psi k a +m psi k b;
  ic_scale : forall k x a, psi k (x *m a) = x *m psi k a;
  ic_dadd : forall a b, den (a +m b) = cadd (den a) (den b);
  ic_dscale : forall x a, den (x *m a) = cscale x (den a);
  ic_inj : forall a b, den a = den b -> a = b
}.

(** A bilinear inner product. *)
Record lin_ip {K : field} {A B C : module K} (ip : list A -> list B -> res C) (theta : A -> B -> C) : Prop := {
  li_ip : forall l r, length l = length r -> ip l r = Ok (dot theta l r);
  li_err : forall l r, length l <> length r -> exists e, ip l r = Err e;
  li_bil : bilinear theta
}.

Lemma lin_ip_single {K : field} {A B C : module K} (ip : list A -> list B -> res C) theta a b :
  lin_ip ip theta -> ip [a] [b] = Ok (theta a b).
Proof. intros H. rewrite (li_ip _ _ H) by reflexivity. now rewrite dot_single. Qed.

Lemma lc_single {R K} {Msg Key : module K} {Out} (C : dhc R Msg Key Out) {X : module K} den phi k m :
  lin_commit (X := X) C den phi -> dh_commit C [k] [m] = Ok (den (phi k m)).
Proof. intros H. rewrite (lc_commit _ _ _ H) by reflexivity. now rewrite dot_single. Qed.

(** A vector commitment is also a commitment to single values. *)
Lemma lin_ip_commit {R K} {Msg Key : module K} {Out} (C : dhc R Msg Key Out) {X : module K} den phi :
  lin_commit (X := X) C den phi -> ip_commit (X := X) C den phi.
Proof.
  intros H. split; intros.
  - now apply lc_single.
  - apply (bil_add_r _ (lc_bil _ _ _ H)).
  - apply (bil_scale_r _ (lc_bil _ _ _ H)).
  - apply (lc_add _ _ _ H).
  - apply (lc_scale _ _ _ H).
  - now apply (lc_inj _ _ _ H).
Qed.

(** ** Instances *)
Definition mid {K} {M : module K} (x : M) : mod_carrier M := x.

Section Instances.
  Context {R : Type} (P : pairing) (E : penv) (HE : 1 <= threads E).

  Definition phi_g1 (k : pG2 P) (m : pG1 P) : pGT P := pr_e P m k.

  Lemma afgho_g1_law rand : lin_commit (R := R) (afgho_g1 P E rand) mid phi_g1.
  Proof.
    split; auto.
    - intros k m H. cbn. rewrite pairing_ip_dot by auto. unfold mid. f_equal.
      now rewrite dot_flip.
    - apply (bilinear_flip (pr_e P)), pr_e_bilinear.
  Qed.

  Lemma afgho_g2_law rand : lin_commit (R := R) (afgho_g2 P E rand) mid (pr_e P).
  Proof.
    split; auto.
    - intros k m H. cbn. now rewrite pairing_ip_dot.
    - apply pr_e_bilinear.
  Qed.

  Lemma pairing_ip_law : lin_ip (pairing_ip P E) (pr_e P).
  Proof.
    split.
    - intros. now apply pairing_ip_dot.
    - intros. eexists. now apply pairing_ip_err.
    - apply pr_e_bilinear.
  Qed.
End Instances.

Lemma pedersen_law {R K} (G : module K) rand : lin_commit (R := R) (pedersen G rand) mid smul.
Proof.
  split; auto.
  - intros k m H. cbn. now rewrite multiexp_ip_dot.
  - apply smul_bilinear.
Qed.

Lemma multiexp_ip_law {K} (G : module K) : lin_ip (B := fmod K) (multiexp_ip G) smul.
Proof.
  split.
  - intros. now apply multiexp_ip_dot.
  - intros. eexists. now apply multiexp_ip_err.
  - apply smul_bilinear.
Qed.

Lemma scalar_ip_law {K : field} E : lin_ip (A := fmod K) (B := fmod K) (C := fmod K) (scalar_ip E) fmul'.
Proof.
  split.
  - intros. now apply scalar_ip_dot.
  - intros. eexists. now apply scalar_ip_err.
  - apply fmul_bilinear.
Qed.

Definition idout {K} {T : module K} (v : T) : identity_output T := [v].
Definition psi_id {K} {T : module K} (k : unitmod K) (v : T) : T := v.

Lemma identity_law {R K} (T : module K) : ip_commit (R := R) (identity T) idout psi_id.
Proof.
  split; auto.
  intros a b [= ->]. reflexivity.
Qed.

Lemma dot_zero {K} {A B C : module K} (l : list A) (r : list B) : dot (fun _ _ => (m0 : C)) l r = m0.
Proof.
  revert r. induction l; destruct r; try reflexivity. rewrite dot_cons, IHl. apply madd_0_l.
Qed.

(** the placeholder commitment commits to nothing *)
Lemma ssm_placeholder_law {R} (K : field) :
  lin_commit (R := R) (ssm_placeholder K) mid (fun (_ : unitmod K) (_ : fmod K) => (m0 : fmod K)).
Proof.
  split; auto.
  - intros k m H. cbn. f_equal. symmetry. apply (dot_zero (A := unitmod K) (B := fmod K) (C := fmod K)).
  - pose proof (F_R (f_theory K)) as T. split; intros.
    + symmetry. apply (madd_0_l K (fmod K)).
    + symmetry. apply (madd_0_l K (fmod K)).
    + symmetry. apply (mscale_0_r K (fmod K)).
    + symmetry. apply (mscale_0_r K (fmod K)).
Qed.

(** ** Homomorphism *)
Section Hom.
  Context {R : Type} {K : field} {Msg Key : module K} {Out : carrier K} (C : dhc R Msg Key Out)
    {X : module K} (den : X -> Out) (phi : Key -> Msg -> X) (L : lin_commit C den phi).

  Lemma hom_msg_add k m m' : length k = length m -> length m = length m' ->
    exists x y, dh_commit C k m = Ok x /\ dh_commit C k m' = Ok y /\
                dh_commit C k (vadd m m') = Ok (cadd x y).
  Proof.
    intros H1 H2. exists (den (dot phi k m)), (den (dot phi k m')).
    rewrite !(lc_commit _ _ _ L) by (rewrite ?vadd_length; lia).
    rewrite (dot_vadd_r _ (lc_bil _ _ _ L)), (lc_add _ _ _ L) by lia. auto.
  Qed.

  Lemma hom_key_add k k' m : length k = length m -> length k = length k' ->
    exists x y, dh_commit C k m = Ok x /\ dh_commit C k' m = Ok y /\
                dh_commit C (vadd k k') m = Ok (cadd x y).
  Proof.
    intros H1 H2. exists (den (dot phi k m)), (den (dot phi k' m)).
    rewrite !(lc_commit _ _ _ L) by (rewrite ?vadd_length; lia).
    rewrite (dot_vadd_l _ (lc_bil _ _ _ L)), (lc_add _ _ _ L) by lia. auto.
  Qed.

  Lemma hom_msg_scale s k m : length k = length m ->
    exists x, dh_commit C k m = Ok x /\ dh_commit C k (vscale s m) = Ok (cscale s x).
  Proof.
    intros H1. exists (den (dot phi k m)).
    rewrite !(lc_commit _ _ _ L) by (rewrite ?vscale_length; lia).
    rewrite (dot_vscale_r _ (lc_bil _ _ _ L)), (lc_scale _ _ _ L). auto.
  Qed.

  Lemma hom_key_scale s k m : length k = length m ->
    exists x, dh_commit C k m = Ok x /\ dh_commit C (vscale s k) m = Ok (cscale s x).
  Proof.
    intros H1. exists (den (dot phi k m)).
    rewrite !(lc_commit _ _ _ L) by (rewrite ?vscale_length; lia).
    rewrite (dot_vscale_l _ (lc_bil _ _ _ L)), (lc_scale _ _ _ L). auto.
  Qed.

  (** two openings of one commitment *)
  Lemma binding_relation k m m' com : length k = length m -> length k = length m' ->
    dh_verify C k m com = Ok true -> dh_verify C k m' com = Ok true ->
    dot phi k (vadd m (vscale (fopp f1) m')) = m0.
  Proof.
    intros H1 H2. unfold dh_verify. rewrite !(lc_commit _ _ _ L) by auto. cbn.
    intros [= E1] [= E2]. apply ceqb_spec in E1. apply ceqb_spec in E2.
    assert (E : dot phi k m = dot phi k m') by (apply (lc_inj _ _ _ L); congruence).
    rewrite (dot_vadd_r _ (lc_bil _ _ _ L)), (dot_vscale_r _ (lc_bil _ _ _ L))
      by (rewrite ?vscale_length; lia).
    rewrite E. rewrite <- mopp_scale. apply madd_opp.
  Qed.
End Hom.

Lemma random_generators_length {R A} (s : sampler R A) rng n :
  length (fst (random_generators s rng n)) = n.
Proof.
  revert rng. induction n; cbn; intros; auto.
  destruct (s rng) as [x rng']. specialize (IHn rng').
  destruct (random_generators s rng' n). cbn in *. auto.
Qed.

Lemma vsub_nonzero {K} {M : module K} (m m' : list M) :
  length m = length m' -> m <> m' ->
  exists i, i < length m /\ at_ (vadd m (vscale (fopp f1) m')) i <> m0.
Proof.
  intros Hl Hne.
  assert (D : forall i, i < length m -> at_ (vadd m (vscale (fopp f1) m')) i = at_ m i -m at_ m' i).
  { intros i Hi. unfold at_ at 1. rewrite vadd_zipw by (rewrite vscale_length; auto).
    rewrite (zipw_nth madd _ _ i m0 m0) by (rewrite ?vscale_length; lia).
    rewrite vscale_map.
    rewrite (nth_indep (map _ m') m0 (fopp f1 *m (m0 : M))) by (rewrite map_length; lia).
    rewrite map_nth. unfold msub. now rewrite mopp_scale. }
  destruct (existsb (fun i => negb (meqb (at_ m i) (at_ m' i))) (seq 0 (length m))) eqn:Ex.
  - apply existsb_exists in Ex as [i [Hi Hb]]. apply in_seq in Hi. exists i. split; [lia|].
    rewrite D by lia. intros Hz. apply negb_true_iff in Hb.
    assert (at_ m i = at_ m' i).
    { apply (madd_cancel_l K M (mopp (at_ m' i))).
      rewrite (madd_comm K M _ (at_ m i)), (madd_comm K M _ (at_ m' i)).
      rewrite madd_opp. exact Hz. }
    rewrite H, meqb_refl in Hb. discriminate.
  - exfalso. apply Hne. apply (nth_ext_eq _ _ m0); auto. intros i Hi.
    destruct (meqb (at_ m i) (at_ m' i)) eqn:Eb; [now apply meqb_spec in Eb|].
    assert (existsb (fun i => negb (meqb (at_ m i) (at_ m' i))) (seq 0 (length m)) = true).
    { apply existsb_exists. exists i. split; [apply in_seq; lia|]. now rewrite Eb. }
    congruence.
Qed.

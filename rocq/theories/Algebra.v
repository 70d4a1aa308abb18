(** Interfaces of the algebraic dependencies (ark-ff, ark-ec) as records of operations and laws,
    and a reflexive decision procedure for linear equalities in modules. *)
Require Import List Arith NArith Lia Bool Field.
Import ListNotations.
Require Import Verif.Outcome.

(** Bytes are [N]; byte strings are lists. *)
Definition bytes := list N.

(** ** Scalar fields: ark_ff::PrimeField.
    [finv] is only meaningful on non-zero elements; the Rust [inverse()] is [finverse].
    [f_ofN] is [From<u128>] (reduction of an integer into the field);
    [f_rand] is [Field::from_random_bytes]; [fser] is [serialize_uncompressed]. *)
Record field : Type := {
  fcar :> Type;
  f0 : fcar;
  f1 : fcar;
  fadd : fcar -> fcar -> fcar;
  fmul : fcar -> fcar -> fcar;
  fsub : fcar -> fcar -> fcar;
  fopp : fcar -> fcar;
  fdiv : fcar -> fcar -> fcar;
  finv : fcar -> fcar;
  feqb : fcar -> fcar -> bool;
  fser : fcar -> bytes;
  f_ofN : N -> fcar;
  f_rand : bytes -> option fcar;
  f_theory : field_theory f0 f1 fadd fmul fsub fopp fdiv finv eq;
  feqb_spec : forall x y, feqb x y = true <-> x = y
}.
Arguments f0 {_}.
Arguments f1 {_}.
Arguments fadd {_}.
Arguments fmul {_}.
Arguments fsub {_}.
Arguments fopp {_}.
Arguments fdiv {_}.
Arguments finv {_}.
Arguments feqb {_}.
Arguments fser {_}.
Arguments f_ofN {_}.
Arguments f_rand {_}.

(** Rust [Field::inverse]. *)
Definition finverse {K : field} (x : K) : option K :=
  if feqb x f0 then None else Some (finv x).

(** Rust [Field::pow(&[n])]. *)
Fixpoint fpow {K : field} (x : K) (n : nat) : K :=
  match n with O => f1 | S n => fmul x (fpow x n) end.

(** ** Groups of the scalar field's order: ark_ec::Group / CurveGroup / PairingOutput,
    and any other type used as commitment key or message.  Projective, affine and prepared
    representations are identified. *)
Record module (K : field) : Type := {
  mcar :> Type;
  m0 : mcar;
  madd : mcar -> mcar -> mcar;
  mopp : mcar -> mcar;
  mscale : K -> mcar -> mcar;
  meqb : mcar -> mcar -> bool;
  mser : mcar -> bytes;
  madd_comm : forall a b, madd a b = madd b a;
  madd_assoc : forall a b c, madd a (madd b c) = madd (madd a b) c;
  madd_0_l : forall a, madd m0 a = a;
  madd_opp : forall a, madd a (mopp a) = m0;
  mscale_1 : forall a, mscale f1 a = a;
  mscale_mul : forall x y a, mscale (fmul x y) a = mscale x (mscale y a);
  mscale_add_r : forall x a b, mscale x (madd a b) = madd (mscale x a) (mscale x b);
  mscale_add_l : forall x y a, mscale (fadd x y) a = madd (mscale x a) (mscale y a);
  meqb_spec : forall a b, meqb a b = true <-> a = b
}.
Arguments m0 {K m}.
Arguments madd {K m}.
Arguments mopp {K m}.
Arguments mscale {K m}.
Arguments meqb {K m}.
Arguments mser {K m}.
Arguments mcar {K}.

Definition msub {K} {M : module K} (a b : M) : M := madd a (mopp b).

Declare Scope mod_scope.
Delimit Scope mod_scope with M.
Infix "+m" := madd (at level 50, left associativity).
Infix "-m" := msub (at level 50, left associativity).
Infix "*m" := mscale (at level 39, right associativity).
Infix "+f" := fadd (at level 50, left associativity).
Infix "-f" := fsub (at level 50, left associativity).
Infix "*f" := fmul (at level 40, left associativity).

(** ** Carriers without laws: the [Output] types of the commitments (only [Add], [MulAssign],
    [Eq], [Default], serialization are required by the trait,
    dh_commitments/src/lib.rs 40-46). *)
Record carrier (K : field) : Type := {
  ccar :> Type;
  c0 : ccar;
  cadd : ccar -> ccar -> ccar;
  cscale : K -> ccar -> ccar;
  ceqb : ccar -> ccar -> bool;
  cser : ccar -> bytes;
  ceqb_spec : forall a b, ceqb a b = true <-> a = b
}.
Arguments c0 {K c}.
Arguments cadd {K c}.
Arguments cscale {K c}.
Arguments ceqb {K c}.
Arguments cser {K c}.
Arguments ccar {K}.

Definition mod_carrier {K} (M : module K) : carrier K := {|
  ccar := M; c0 := m0; cadd := madd; cscale := mscale; ceqb := meqb; cser := mser;
  ceqb_spec := meqb_spec K M |}.

(** A field as a module over itself. *)
Section FieldModule.
  Variable K : field.
  Add Field Kfield0 : (f_theory K).
  Definition fmod : module K.
  Proof.
    refine {| mcar := K; m0 := f0; madd := fadd; mopp := fopp; mscale := fmul; meqb := feqb; mser := fser |};
      intros; try ring; apply feqb_spec.
  Defined.

  (** The one-element module: HomomorphicPlaceholderValue. *)
  Definition unitmod : module K.
  Proof.
    refine {| mcar := unit; m0 := tt; madd := fun _ _ => tt; mopp := fun _ => tt;
              mscale := fun _ _ => tt; meqb := fun _ _ => true; mser := fun _ => [] |};
      intros; repeat match goal with a : unit |- _ => destruct a end; try reflexivity.
    split; reflexivity.
  Defined.
End FieldModule.

(** ** Bilinear groups: ark_ec::pairing::Pairing.
    [mml] is [multi_miller_loop] (on slices of equal length), [tfmul]/[tf1] the multiplication of
    the target field, [fexp] is [final_exponentiation] (an [Option]); [pr_e] is the pairing.  The
    laws say that final exponentiation turns (products of) Miller loops into (sums of) pairings,
    that the pairing is bilinear, and non-degenerate at the fixed generators. *)
Record pairing : Type := {
  pK : field;
  pG1 : module pK;
  pG2 : module pK;
  pGT : module pK;
  tf : Type;
  tf1 : tf;
  tfmul : tf -> tf -> tf;
  mml : list pG1 -> list pG2 -> tf;
  fexp : tf -> option pGT;
  pr_e : pG1 -> pG2 -> pGT;
  pr_g : pG1;
  pr_h : pG2;
  fexp_1 : fexp tf1 = Some m0;
  fexp_mul : forall x y a b, fexp x = Some a -> fexp y = Some b -> fexp (tfmul x y) = Some (a +m b);
  fexp_mml : forall l r, length l = length r ->
     fexp (mml l r) = Some (fold_right madd m0 (map (fun p => pr_e (fst p) (snd p)) (combine l r)));
  e_add_l : forall a a' b, pr_e (a +m a') b = pr_e a b +m pr_e a' b;
  e_add_r : forall a b b', pr_e a (b +m b') = pr_e a b +m pr_e a b';
  e_scale_l : forall x a b, pr_e (x *m a) b = x *m pr_e a b;
  e_scale_r : forall x a b, pr_e a (x *m b) = x *m pr_e a b;
  e_nondeg_l : forall a, pr_e a pr_h = m0 -> a = m0;
  e_nondeg_r : forall b, pr_e pr_g b = m0 -> b = m0
}.

(** * Facts *)
Section FieldFacts.
  Variable K : field.
  Add Field Kfield : (f_theory K).
  Implicit Types x y z : K.

  Lemma f1_neq_f0 : (f1 : K) <> f0.
  Proof. exact (F_1_neq_0 (f_theory K)). Qed.

  Lemma feqb_refl x : feqb x x = true.
  Proof. now apply feqb_spec. Qed.

  Lemma feqb_false x y : feqb x y = false <-> x <> y.
  Proof.
    split; intros H.
    - intros ->. rewrite feqb_refl in H. discriminate.
    - destruct (feqb x y) eqn:E; auto. apply feqb_spec in E. contradiction.
  Qed.

  Lemma f_eq_dec x y : {x = y} + {x <> y}.
  Proof.
    destruct (feqb x y) eqn:E; [left; now apply feqb_spec | right; now apply feqb_false].
  Qed.

  Lemma finverse_some x y : finverse x = Some y <-> x <> f0 /\ y = finv x.
  Proof.
    unfold finverse. destruct (feqb x f0) eqn:E.
    - apply feqb_spec in E. split; [discriminate | tauto].
    - apply feqb_false in E. split; [intros [= <-]; auto | intros [_ ->]; auto].
  Qed.

  Lemma finverse_neq x : x <> f0 -> finverse x = Some (finv x).
  Proof. intros. apply finverse_some; auto. Qed.

  Lemma finverse_0 : finverse (f0 : K) = None.
  Proof. unfold finverse. now rewrite feqb_refl. Qed.

  Lemma finv_l x : x <> f0 -> finv x *f x = f1.
  Proof. apply (Finv_l (f_theory K)). Qed.

  Lemma finv_r x : x <> f0 -> x *f finv x = f1.
  Proof. intros. rewrite (Rmul_comm (F_R (f_theory K))). now apply finv_l. Qed.

  Lemma fmul_integral x y : x *f y = f0 -> x = f0 \/ y = f0.
  Proof.
    intros H. destruct (f_eq_dec x f0); [auto|right].
    replace y with (finv x *f (x *f y)) by (field; auto). rewrite H. ring.
  Qed.

  Lemma fmul_neq0 x y : x <> f0 -> y <> f0 -> x *f y <> f0.
  Proof. intros Hx Hy H. apply fmul_integral in H. tauto. Qed.

  Lemma finv_neq0 x : x <> f0 -> finv x <> f0.
  Proof.
    intros H E. apply f1_neq_f0. rewrite <- (finv_l x H), E. ring.
  Qed.

  Lemma finv_finv x : x <> f0 -> finv (finv x) = x.
  Proof.
    intros H. pose proof (finv_neq0 x H) as H'.
    replace (finv (finv x)) with (finv (finv x) *f (finv x *f x)) by (rewrite finv_l by auto; ring).
    rewrite (Rmul_assoc (F_R (f_theory K))), finv_l by auto. ring.
  Qed.

  Lemma finv_1 : finv (f1 : K) = f1.
  Proof.
    transitivity (finv f1 *f (f1 : K)). ring. apply finv_l, f1_neq_f0.
  Qed.

  Lemma finv_mul x y : x <> f0 -> y <> f0 -> finv (x *f y) = finv x *f finv y.
  Proof. intros. field. auto. Qed.

  Lemma fsub_eq0 x y : x -f y = f0 <-> x = y.
  Proof.
    split; intros H.
    - replace x with ((x -f y) +f y) by ring. rewrite H. ring.
    - rewrite H. ring.
  Qed.

  Lemma fpow_add x n m : fpow x (n + m) = fpow x n *f fpow x m.
  Proof. induction n; cbn; [ring|rewrite IHn; ring]. Qed.

  Lemma fpow_mul x n m : fpow x (n * m) = fpow (fpow x n) m.
  Proof.
    induction m; cbn.
    - now rewrite Nat.mul_0_r.
    - rewrite Nat.mul_succ_r, fpow_add, IHm. ring.
  Qed.

  Lemma fpow_1_l n : fpow (f1 : K) n = f1.
  Proof. induction n; cbn; [auto|rewrite IHn; ring]. Qed.

  Lemma fpow_mul_l x y n : fpow (x *f y) n = fpow x n *f fpow y n.
  Proof. induction n; cbn; [ring|rewrite IHn; ring]. Qed.

  Lemma fpow_neq0 x n : x <> f0 -> fpow x n <> f0.
  Proof. intros H. induction n; cbn; [apply f1_neq_f0|now apply fmul_neq0]. Qed.

  Lemma finv_fpow x n : x <> f0 -> finv (fpow x n) = fpow (finv x) n.
  Proof.
    intros H. induction n; cbn; [apply finv_1|].
    rewrite finv_mul, IHn; auto using fpow_neq0.
  Qed.

  Lemma fpow_S_r x n : fpow x (S n) = fpow x n *f x.
  Proof. cbn. ring. Qed.
End FieldFacts.

Section ModuleFacts.
  Variable K : field.
  Variable M : module K.
  Add Field Kfield1 : (f_theory K).
  Implicit Types a b c : M.
  Implicit Types x y : K.

  Lemma madd_0_r a : a +m m0 = a.
  Proof. rewrite madd_comm. apply madd_0_l. Qed.

  Lemma madd_cancel_l a b c : a +m b = a +m c -> b = c.
  Proof.
    intros H.
    rewrite <- (madd_0_l K M b), <- (madd_0_l K M c), <- (madd_opp K M a), (madd_comm K M a).
    rewrite <- !madd_assoc. now rewrite H.
  Qed.

  Lemma mscale_0_l a : f0 *m a = m0.
  Proof.
    apply (madd_cancel_l (f0 *m a)). rewrite <- mscale_add_l, madd_0_r. f_equal. ring.
  Qed.

  Lemma mscale_0_r x : x *m (m0 : M) = m0.
  Proof.
    apply (madd_cancel_l (x *m m0)). rewrite <- mscale_add_r, !madd_0_r. reflexivity.
  Qed.

  Lemma mopp_scale a : mopp a = (fopp f1) *m a.
  Proof.
    apply (madd_cancel_l a). rewrite madd_opp.
    rewrite <- (mscale_1 K M a) at 1. rewrite <- mscale_add_l.
    replace (f1 +f fopp f1) with (f0 : K) by ring. now rewrite mscale_0_l.
  Qed.

  Lemma meqb_refl a : meqb a a = true.
  Proof. now apply meqb_spec. Qed.

  Lemma m_eq_dec a b : {a = b} + {a <> b}.
  Proof.
    destruct (meqb a b) eqn:E; [left; now apply meqb_spec|right].
    intros ->. rewrite meqb_refl in E. discriminate.
  Qed.

  Lemma mscale_integral x a : x *m a = m0 -> x = f0 \/ a = m0.
  Proof.
    intros H. destruct (f_eq_dec K x f0); [auto|right].
    rewrite <- (mscale_1 K M a). rewrite <- (finv_l K x n), mscale_mul, H. apply mscale_0_r.
  Qed.
End ModuleFacts.

Lemma ceqb_refl K (C : carrier K) (a : C) : ceqb a a = true.
Proof. now apply ceqb_spec. Qed.

Lemma ceqb_false K (C : carrier K) (a b : C) : ceqb a b = false <-> a <> b.
Proof.
  split; intros H.
  - intros ->. rewrite ceqb_refl in H. discriminate.
  - destruct (ceqb a b) eqn:E; auto. apply ceqb_spec in E. contradiction.
Qed.

(** ** Decision procedure for equalities between linear combinations. *)
Section Reflect.
  Variable K : field.
  Variable M : module K.
  Add Field Kfield2 : (f_theory K).

  Inductive mexpr : Type :=
  | ME0 | MEv (i : nat) | MEadd (a b : mexpr) | MEopp (a : mexpr) | MEs (x : K) (a : mexpr).

  Fixpoint mden (env : list M) (e : mexpr) : M :=
    match e with
    | ME0 => m0
    | MEv i => nth i env m0
    | MEadd a b => mden env a +m mden env b
    | MEopp a => mopp (mden env a)
    | MEs x a => x *m mden env a
    end.

  Fixpoint mcoef (e : mexpr) (i : nat) : K :=
    match e with
    | ME0 => f0
    | MEv j => if Nat.eqb i j then f1 else f0
    | MEadd a b => mcoef a i +f mcoef b i
    | MEopp a => fopp (mcoef a i)
    | MEs x a => x *f mcoef a i
    end.

  Fixpoint mlin (f : nat -> K) (env : list M) : M :=
    match env with
    | [] => m0
    | v :: t => f O *m v +m mlin (fun i => f (S i)) t
    end.

  Lemma mlin_ext f g env : (forall i, i < length env -> f i = g i) -> mlin f env = mlin g env.
  Proof.
    revert f g. induction env; cbn; intros f g H; auto.
    rewrite (H 0) by lia. f_equal. apply IHenv. intros. apply H. lia.
  Qed.

  Lemma mlin_0 env : mlin (fun _ => f0) env = m0.
  Proof. induction env; cbn; auto. now rewrite IHenv, mscale_0_l, madd_0_l. Qed.

  Lemma mlin_add f g env : mlin (fun i => f i +f g i) env = mlin f env +m mlin g env.
  Proof.
    revert f g. induction env; cbn; intros.
    - now rewrite madd_0_l.
    - rewrite IHenv, mscale_add_l, <- !madd_assoc. f_equal.
      rewrite !madd_assoc. f_equal. apply madd_comm.
  Qed.

  Lemma mlin_scale x f env : mlin (fun i => x *f f i) env = x *m mlin f env.
  Proof.
    revert f. induction env; cbn; intros.
    - now rewrite mscale_0_r.
    - now rewrite IHenv, mscale_mul, mscale_add_r.
  Qed.

  Lemma mlin_var j env : mlin (fun i => if Nat.eqb i j then f1 else f0) env = nth j env m0.
  Proof.
    revert j. induction env; destruct j; cbn; auto.
    - rewrite mlin_0, mscale_1, madd_0_r. auto.
    - rewrite IHenv, mscale_0_l, madd_0_l. auto.
  Qed.

  Lemma mden_mlin env e : mden env e = mlin (mcoef e) env.
  Proof.
    induction e; cbn.
    - symmetry. apply mlin_0.
    - symmetry. apply mlin_var.
    - rewrite IHe1, IHe2. symmetry. apply mlin_add.
    - rewrite IHe, mopp_scale, <- mlin_scale. apply mlin_ext. intros. ring.
    - rewrite IHe. symmetry. apply mlin_scale.
  Qed.

  Fixpoint all_coef (n : nat) (a b : mexpr) : Prop :=
    match n with
    | O => True
    | S n => mcoef a n = mcoef b n /\ all_coef n a b
    end.

  Lemma module_eq_sound env a b : all_coef (length env) a b -> mden env a = mden env b.
  Proof.
    intros H. rewrite !mden_mlin. apply mlin_ext. revert H.
    generalize (length env). intros n. induction n; cbn; intros; [lia|].
    destruct (Nat.eq_dec i n); [subst; tauto | apply IHn; [tauto|lia]].
  Qed.
End Reflect.

Ltac me_mem x l :=
  lazymatch l with
  | nil => constr:(false)
  | cons x _ => constr:(true)
  | cons _ ?t => me_mem x t
  end.
Ltac me_idx x l :=
  lazymatch l with
  | cons x _ => constr:(O)
  | cons _ ?t => let n := me_idx x t in constr:(S n)
  end.
Ltac me_atoms M t env :=
  lazymatch t with
  | @m0 _ M => env
  | @madd _ M ?a ?b => let e := me_atoms M a env in me_atoms M b e
  | @msub _ M ?a ?b => let e := me_atoms M a env in me_atoms M b e
  | @mopp _ M ?a => me_atoms M a env
  | @mscale _ M _ ?a => me_atoms M a env
  | _ => let b := me_mem t env in
         lazymatch b with true => env | false => constr:(cons t env) end
  end.
Ltac me_reify K M env t :=
  lazymatch t with
  | @m0 _ M => constr:(ME0 K)
  | @madd _ M ?a ?b => let x := me_reify K M env a in let y := me_reify K M env b in constr:(MEadd K x y)
  | @msub _ M ?a ?b => let x := me_reify K M env a in let y := me_reify K M env b in constr:(MEadd K x (MEopp K y))
  | @mopp _ M ?a => let x := me_reify K M env a in constr:(MEopp K x)
  | @mscale _ M ?c ?a => let x := me_reify K M env a in constr:(MEs K c x)
  | _ => let i := me_idx t env in constr:(MEv K i)
  end.

(** Reduces an equality of linear combinations to equalities of coefficients. *)
Ltac module_norm :=
  lazymatch goal with
  | |- @eq _ ?a ?b =>
    let T := lazymatch goal with |- @eq ?T _ _ => T end in
    lazymatch T with
    | @mcar ?K ?M =>
      let env := me_atoms M a (@nil (@mcar K M)) in
      let env := me_atoms M b env in
      let ea := me_reify K M env a in
      let eb := me_reify K M env b in
      change (mden K M env ea = mden K M env eb);
      apply module_eq_sound;
      cbn [length all_coef mcoef Nat.eqb];
      repeat match goal with |- _ /\ _ => split end; try exact I
    end
  end.

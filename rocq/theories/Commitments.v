(** Model of dh_commitments/src. *)
Require Import List Arith Bool NArith.
Import ListNotations.
Require Import Verif.Outcome Verif.Algebra Verif.Rust Verif.InnerProducts.

(** Random generators ([R: Rng]) are arbitrary state machines; [sample] is [G::rand(rng)] /
    [F::rand(rng)]. *)
Definition sampler (R A : Type) := R -> A * R.

(** lib.rs 59-61 [random_generators]: [(0..num).map(|_| G::rand(rng)).collect()]. *)
Fixpoint random_generators {R A} (sample : sampler R A) (rng : R) (num : nat) : list A * R :=
  match num with
  | O => ([], rng)
  | S n => let (x, rng) := sample rng in
           let (xs, rng) := random_generators sample rng n in (x :: xs, rng)
  end.

(** lib.rs 20-55 [trait DoublyHomomorphicCommitment]: message and key types are modules, the output
    type only has operations. [R] is the type of random generator states. *)
Record dhc (R : Type) {K : field} (Msg Key : module K) (Out : carrier K) : Type := mk_dhc {
  dh_setup : R -> nat -> res (list Key * R);
  dh_commit : list Key -> list Msg -> res Out
}.
Arguments mk_dhc {R K} Msg Key Out _ _.
Arguments dh_setup {R K Msg Key Out}.
Arguments dh_commit {R K Msg Key Out}.

(** lib.rs 52-54 [verify] *)
Definition dh_verify {R K} {Msg Key : module K} {Out : carrier K} (C : dhc R Msg Key Out)
  (k : list Key) (m : list Msg) (com : Out) : res bool :=
  do c <- dh_commit C k m; Ok (ceqb c com).

(** afgho16/mod.rs 20-33 [AFGHOCommitmentG1] *)
Definition afgho_g1 {R} (P : pairing) (E : penv) (rand_g2 : sampler R (pG2 P))
  : dhc R (pG1 P) (pG2 P) (mod_carrier (pGT P)) :=
  mk_dhc (pG1 P) (pG2 P) (mod_carrier (pGT P))
    (fun rng size => Ok (random_generators rand_g2 rng size))
    (fun k m => pairing_ip P E m k).

(** afgho16/mod.rs 35-48 [AFGHOCommitmentG2] *)
Definition afgho_g2 {R} (P : pairing) (E : penv) (rand_g1 : sampler R (pG1 P))
  : dhc R (pG2 P) (pG1 P) (mod_carrier (pGT P)) :=
  mk_dhc (pG2 P) (pG1 P) (mod_carrier (pGT P))
    (fun rng size => Ok (random_generators rand_g1 rng size))
    (fun k m => pairing_ip P E k m).

(** pedersen/mod.rs 14-27 [PedersenCommitment] *)
Definition pedersen {R K} (G : module K) (rand_g : sampler R G)
  : dhc R (fmod K) G (mod_carrier G) :=
  mk_dhc (fmod K) G (mod_carrier G)
    (fun rng size => Ok (random_generators rand_g rng size))
    (fun k m => multiexp_ip G k m).

(** identity/mod.rs 32-62 [IdentityOutput]: a vector; [add] zips (stopping at the shorter one),
    [mul_assign] is elementwise; derived [Eq], [Default] (empty) and serialization (length prefix). *)
Definition list_eqb {A} (eqb : A -> A -> bool) : list A -> list A -> bool :=
  fix go l r := match l, r with
  | [], [] => true
  | x :: l, y :: r => eqb x y && go l r
  | _, _ => false
  end.

Lemma list_eqb_spec {A} (eqb : A -> A -> bool) :
  (forall a b, eqb a b = true <-> a = b) -> forall l r, list_eqb eqb l r = true <-> l = r.
Proof.
  intros H l. induction l; destruct r; cbn; split; intros E; try discriminate; auto.
  - apply andb_true_iff in E. destruct E as [E1 E2]. apply H in E1. apply IHl in E2. congruence.
  - injection E as -> ->. apply andb_true_iff. split; [now apply H | now apply IHl].
Qed.

Definition identity_output {K} (T : module K) : carrier K := {|
  ccar := list T;
  c0 := [];
  cadd := zipw madd;
  cscale := fun x => map (mscale x);
  ceqb := list_eqb meqb;
  cser := ser_list mser;
  ceqb_spec := list_eqb_spec meqb (meqb_spec K T) |}.

(** identity/mod.rs 64-89 [IdentityCommitment]; keys are [HomomorphicPlaceholderValue] (18-30), a
    unit struct with trivial operations. *)
Definition identity {R K} (T : module K) : dhc R T (unitmod K) (identity_output T) :=
  mk_dhc T (unitmod K) (identity_output T)
    (fun rng size => Ok (repeat (tt : unitmod K) size, rng))
    (fun _ m => Ok m).

(** Injectivity of the hashed byte strings (C16, C50) and the Fiat-Shamir generator (C51). *)
Require Import List Arith NArith Lia Bool.
Import ListNotations.
Require Import Verif.Outcome Verif.Algebra Verif.Rust Verif.Spec Verif.ListFacts Verif.RustFacts
  Verif.Commitments Verif.Gipa Verif.Rng Verif.Sipp.

(** A code is prefix free when an encoding followed by anything determines the value and the rest. *)
Definition prefix_free {A} (ser : A -> bytes) : Prop :=
  forall a b x y, ser a ++ x = ser b ++ y -> a = b /\ x = y.

Lemma app_same_length {A} (a b x y : list A) : length a = length b -> a ++ x = b ++ y -> a = b /\ x = y.
Proof.
  revert b. induction a; destruct b; cbn; intros H E; try discriminate; auto.
  injection E as -> E. apply IHa in E as [-> ->]; auto.
Qed.

(** injective codes of constant length are prefix free *)
Lemma fixed_length_prefix_free {A} (ser : A -> bytes) n :
  (forall a, length (ser a) = n) -> (forall a b, ser a = ser b -> a = b) -> prefix_free ser.
Proof.
  intros Hn Hi a b x y E. apply app_same_length in E as [E1 E2]; [|now rewrite !Hn]. auto.
Qed.

Lemma be_bytes_length k : forall n, length (be_bytes k n) = k.
Proof. induction k; cbn; intros; auto. rewrite app_length, IHk. cbn. lia. Qed.

Lemma be_bytes_inj k : forall n m, (n < 256 ^ N.of_nat k)%N -> (m < 256 ^ N.of_nat k)%N ->
  be_bytes k n = be_bytes k m -> n = m.
Proof.
  induction k; intros n m Hn Hm H.
  - cbn in *. lia.
  - cbn [be_bytes] in H. apply app_inj_tail in H as [H1 H2].
    rewrite Nat2N.inj_succ, N.pow_succ_r' in Hn, Hm.
    apply IHk in H1.
    + rewrite (N.div_mod n 256), (N.div_mod m 256) by lia. congruence.
    + apply N.div_lt_upper_bound; lia.
    + apply N.div_lt_upper_bound; lia.
Qed.

Definition u64_bound (n : nat) : Prop := (N.of_nat n < 2 ^ 64)%N.

Lemma usize_be_inj n m : u64_bound n -> u64_bound m -> usize_be n = usize_be m -> n = m.
Proof.
  unfold u64_bound. intros Hn Hm H. apply Nat2N.inj. apply (be_bytes_inj 8); auto.
Qed.

Lemma usize_be_length n : length (usize_be n) = 8.
Proof. apply be_bytes_length. Qed.

Lemma u64_le_length n : length (u64_le n) = 8.
Proof. unfold u64_le. rewrite rev_length. apply be_bytes_length. Qed.

Lemma u64_le_inj n m : u64_bound n -> u64_bound m -> u64_le n = u64_le m -> n = m.
Proof.
  intros Hn Hm H. apply usize_be_inj; auto. unfold u64_le in H.
  apply (f_equal (@rev N)) in H. now rewrite !rev_involutive in H.
Qed.

Lemma flat_map_prefix {A} (f : A -> bytes) (Hf : prefix_free f) l : forall r x y,
  length l = length r -> flat_map f l ++ x = flat_map f r ++ y -> l = r /\ x = y.
Proof.
  induction l; destruct r; cbn; intros x y H E; try discriminate; auto.
  rewrite <- !app_assoc in E. apply Hf in E as [-> E]. apply IHl in E as [-> ->]; auto.
Qed.

Lemma ser_list_prefix {A} (f : A -> bytes) (Hf : prefix_free f) l r x y :
  u64_bound (length l) -> u64_bound (length r) ->
  ser_list f l ++ x = ser_list f r ++ y -> l = r /\ x = y.
Proof.
  intros Hl Hr. unfold ser_list. rewrite <- !app_assoc. intros E.
  apply app_same_length in E as [E1 E2]; [|now rewrite !u64_le_length].
  apply u64_le_inj in E1; auto. now apply flat_map_prefix in E2.
Qed.

(** C16 *)
Lemma gipa_hash_input_inj {K : field} {OA OB OT : carrier K} n n' (p p' : K)
    (c1 c2 c1' c2' : com3 OA OB OT) :
  u64_bound n -> u64_bound n' ->
  prefix_free (@fser K) -> prefix_free (@cser K OA) -> prefix_free (@cser K OB) ->
  prefix_free (@cser K OT) ->
  gipa_hash_input n p c1 c2 = gipa_hash_input n' p' c1' c2' ->
  n = n' /\ p = p' /\ c1 = c1' /\ c2 = c2'.
Proof.
  intros Hn Hn' HF HA HB HT. unfold gipa_hash_input.
  destruct c1 as [[a1 b1] t1], c2 as [[a2 b2] t2], c1' as [[a1' b1'] t1'], c2' as [[a2' b2'] t2'].
  intros E.
  apply app_same_length in E as [E1 E]; [|now rewrite !usize_be_length].
  apply usize_be_inj in E1; auto.
  apply HF in E as [-> E]. apply HA in E as [-> E]. apply HB in E as [-> E]. apply HT in E as [-> E].
  apply HA in E as [-> E]. apply HB in E as [-> E].
  rewrite <- (app_nil_r (cser t2)), <- (app_nil_r (cser t2')) in E. apply HT in E as [-> _].
  auto.
Qed.

(** C50 *)
Lemma sipp_seed_inj (P : pairing) (a a' : list (pG1 P)) (b b' : list (pG2 P)) (r r' : list (pK P))
    (v v' : pGT P) :
  u64_bound (length a) -> u64_bound (length a') -> u64_bound (length b) -> u64_bound (length b') ->
  u64_bound (length r) -> u64_bound (length r') ->
  prefix_free (@mser _ (pG1 P)) -> prefix_free (@mser _ (pG2 P)) -> prefix_free (@fser (pK P)) ->
  prefix_free (@mser _ (pGT P)) ->
  sipp_seed P a b r v = sipp_seed P a' b' r' v' -> a = a' /\ b = b' /\ r = r' /\ v = v'.
Proof.
  intros H1 H2 H3 H4 H5 H6 F1 F2 FF FT E. unfold sipp_seed in E.
  apply ser_list_prefix in E as [-> E]; auto.
  apply ser_list_prefix in E as [-> E]; auto.
  apply ser_list_prefix in E as [-> E]; auto.
  rewrite <- (app_nil_r (mser v)), <- (app_nil_r (mser v')) in E. apply FT in E as [-> _].
  auto.
Qed.

Lemma sipp_absorb_inj (P : pairing) (zl zl' zr zr' : pGT P) (s s' : bytes) :
  prefix_free (@mser _ (pGT P)) ->
  (mser zl ++ mser zr) ++ s = (mser zl' ++ mser zr') ++ s' -> zl = zl' /\ zr = zr' /\ s = s'.
Proof.
  intros F E. rewrite <- !app_assoc in E.
  apply F in E as [-> E]. apply F in E as [-> ->]. auto.
Qed.

(** ** C51: histories of the generator *)
Section FiatShamir.
  Variable S : stream.
  Variable D : bytes -> bytes.

  Inductive fs_op : Type :=
  | OpAbsorb (m : bytes)
  | OpU32 | OpU64 | OpFill (n : nat).

  (** what an operation returns *)
  Inductive fs_out : Type := OutNone | OutN (x : N) | OutB (b : bytes).

  Definition fs_step (o : fs_op) (r : fsrng S) : fs_out * fsrng S :=
    match o with
    | OpAbsorb m => (OutNone, fs_absorb D r m)
    | OpU32 => let (x, r) := fs_next_u32 r in (OutN x, r)
    | OpU64 => let (x, r) := fs_next_u64 r in (OutN x, r)
    | OpFill n => let (x, r) := fs_fill_bytes n r in (OutB x, r)
    end.

  Fixpoint fs_run (h : list fs_op) (r : fsrng S) : list fs_out * fsrng S :=
    match h with
    | [] => ([], r)
    | o :: h => let (x, r) := fs_step o r in
                let (xs, r) := fs_run h r in (x :: xs, r)
    end.

  Definition is_absorb (o : fs_op) : bool := match o with OpAbsorb _ => true | _ => false end.

  (** the messages absorbed by a history, oldest first *)
  Fixpoint absorbed (h : list fs_op) : list bytes :=
    match h with
    | [] => []
    | OpAbsorb m :: h => m :: absorbed h
    | _ :: h => absorbed h
    end.

  (** H(m_k || ... H(m_1 || H(s))) *)
  Definition hash_chain (s : bytes) (ms : list bytes) : bytes :=
    fold_left (fun acc m => D (m ++ acc)) ms (D s).

  Lemma fs_step_seed o r : is_absorb o = false -> fs_seed (snd (fs_step o r)) = fs_seed r.
  Proof.
    destruct o; cbn; intros H; try discriminate.
    - unfold fs_next_u32. destruct (st_next_u32 S (fs_r r)). reflexivity.
    - unfold fs_next_u64. destruct (st_next_u64 S (fs_r r)). reflexivity.
    - unfold fs_fill_bytes. destruct (st_fill_bytes S n (fs_r r)). reflexivity.
  Qed.

  Lemma fs_run_seed h : forall r,
    fs_seed (snd (fs_run h r)) = fold_left (fun acc m => D (m ++ acc)) (absorbed h) (fs_seed r).
  Proof.
    induction h as [|o h IH]; intros r; [reflexivity|]. cbn [fs_run].
    destruct (fs_step o r) as [x r'] eqn:E.
    specialize (IH r'). destruct (fs_run h r') as [xs r'']. cbn [snd] in *. rewrite IH.
    destruct o; cbn [absorbed fold_left].
    - cbn in E. injection E as <- <-. reflexivity.
    - f_equal. rewrite <- (fs_step_seed OpU32 r) by auto. now rewrite E.
    - f_equal. rewrite <- (fs_step_seed OpU64 r) by auto. now rewrite E.
    - f_equal. rewrite <- (fs_step_seed (OpFill n) r) by auto. now rewrite E.
  Qed.

  (** right after an absorb the whole state is the seeded generator of the hash chain *)
  Lemma fs_run_absorb_state s h m :
    snd (fs_run (h ++ [OpAbsorb m]) (fs_from_seed S D s)) =
    let d := hash_chain s (absorbed h ++ [m]) in mk_fsrng (st_from_seed S d) d.
  Proof.
    assert (A : forall h r, snd (fs_run (h ++ [OpAbsorb m]) r) = fs_absorb D (snd (fs_run h r)) m).
    { clear. induction h; intros r; [reflexivity|]. cbn [app fs_run].
      destruct (fs_step a r) as [x r']. specialize (IHh r').
      destruct (fs_run (h ++ [OpAbsorb m]) r'), (fs_run h r'). exact IHh. }
    rewrite A. unfold fs_absorb. rewrite fs_run_seed. unfold hash_chain.
    rewrite fold_left_app. reflexivity.
  Qed.
End FiatShamir.

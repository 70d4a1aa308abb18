(** Facts about Circuits.v. *)
Require Import List Arith NArith ZArith Lia Bool Field.
Import ListNotations.
Require Import Verif.Outcome Verif.Algebra Verif.Rust Verif.Spec Verif.ListFacts Verif.RustFacts Verif.Commitments Verif.Groth16
  Verif.Batch Verif.GrothMain Verif.Circuits.

Definition is_bytes (b : bytes) : Prop := Forall (fun x => (x < 256)%N) b.

(** A prime field with its representatives below the modulus *)
Record prime_repr_ok {K : field} (F : prime_repr K) : Prop := {
  into_lt : forall x, (into_bigint F x < pr_modulus F)%N;
  ofN_into : forall x : K, f_ofN (into_bigint F x) = x;
  into_ofN : forall n, into_bigint F (f_ofN n) = (n mod pr_modulus F)%N;
  modulus_bytes : (pr_modulus F <= 256 ^ N.of_nat (pr_bytes F))%N }.

(** ** Bytes *)
Lemma le_bytes_length k : forall n, length (le_bytes k n) = k.
Proof. induction k; intros n; cbn; auto. Qed.
Lemma le_bytes_is k : forall n, is_bytes (le_bytes k n).
Proof. induction k; intros n; cbn [le_bytes]; constructor; [apply N.mod_lt; lia|apply IHk]. Qed.
Lemma pow256_S k : (256 ^ N.of_nat (S k) = 256 * 256 ^ N.of_nat k)%N.
Proof. now rewrite Nat2N.inj_succ, N.pow_succ_r'. Qed.
Lemma from_le_lt b : is_bytes b -> (from_le_bytes b < 256 ^ N.of_nat (length b))%N.
Proof.
  induction 1 as [|x b Hx Hb IH]; [cbn; lia|]. cbn [length from_le_bytes fold_right]. fold (from_le_bytes b).
  rewrite pow256_S. lia.
Qed.
Lemma le_from_le k : forall b, is_bytes b -> length b <= k -> le_bytes k (from_le_bytes b) = b ++ repeat 0%N (k - length b).
Proof.
  induction k as [|k IH]; intros b Hb Hl.
  - destruct b; [reflexivity|cbn in Hl; lia].
  - destruct b as [|x b]; cbn [from_le_bytes fold_right le_bytes length app].
    + rewrite N.mod_0_l, N.div_0_l by lia. change 0%N with (from_le_bytes []) at 2. rewrite IH by (auto; cbn; lia).
      cbn [app length]. rewrite !Nat.sub_0_r. reflexivity.
    + fold (from_le_bytes b). inversion Hb; subst. cbn [length] in Hl.
      replace ((x + 256 * from_le_bytes b) mod 256)%N with x by (rewrite N.mul_comm, N.mod_add, N.mod_small by lia; reflexivity).
      replace ((x + 256 * from_le_bytes b) / 256)%N with (from_le_bytes b)
        by (rewrite N.mul_comm, N.div_add, (N.div_small x) by lia; reflexivity).
      rewrite IH by (auto; lia). reflexivity.
Qed.
Lemma from_le_le k : forall n, from_le_bytes (le_bytes k n) = (n mod 256 ^ N.of_nat k)%N.
Proof.
  induction k as [|k IH]; intros n; cbn [le_bytes from_le_bytes fold_right].
  - cbn. now rewrite N.mod_1_r.
  - fold (from_le_bytes (le_bytes k (n / 256))). rewrite IH, pow256_S, N.mod_mul_r by (try lia; apply N.pow_nonzero; lia). reflexivity.
Qed.

(** ** Chunks *)
Lemma chunks_fuel_length {A B} size : forall fuel (l : list A) (r : list B), length l = length r ->
  length (chunks_fuel fuel size l) = length (chunks_fuel fuel size r).
Proof.
  induction fuel as [|fuel IH]; intros l r H; [reflexivity|]. cbn. destruct l, r; try (cbn in H; lia); [reflexivity|].
  cbn [length]. f_equal. apply IH. rewrite !skipn_length. lia.
Qed.
Lemma chunks_fuel_blocks {A} k : 0 < k -> forall (bl : list (list A)) fuel, Forall (fun b => length b = k) bl ->
  length (concat bl) <= fuel -> chunks_fuel fuel k (concat bl) = bl.
Proof.
  intros Hk. induction bl as [|b bl IH]; intros fuel HF Hl; [apply chunks_fuel_nil|].
  inversion HF; subst. cbn [concat] in *. rewrite app_length in Hl. destruct fuel; [lia|]. cbn [chunks_fuel].
  destruct (b ++ concat bl) eqn:E; [apply (f_equal (@length A)) in E; rewrite app_length in E; cbn in E; lia|]. rewrite <- E.
  rewrite firstn_app, firstn_all, Nat.sub_diag, skipn_app, skipn_all, Nat.sub_diag. cbn [firstn skipn app]. rewrite app_nil_r.
  f_equal. apply IH; auto. lia.
Qed.

Section Enc.
  Context {K : field} (F : prime_repr K) (HF : prime_repr_ok F).
  Hypothesis Hfit : 0 < fit_bytes F.

  Lemma fit_modulus : (256 ^ N.of_nat (fit_bytes F) <= pr_modulus F)%N.
  Proof using HF Hfit.
    unfold fit_bytes, modulus_bits in *. set (m := pr_modulus F) in *.
    assert (Hm : (m <> 0)%N) by (intros E; pose proof (into_lt F HF f0) as H; fold m in H; lia).
    pose proof (N.size_log2 m Hm) as Hs. pose proof (N.log2_spec m ltac:(lia)) as [H1 _].
    eapply N.le_trans; [|exact H1]. change 256%N with (2 ^ 8)%N. rewrite <- N.pow_mul_r. apply N.pow_le_mono_r; [lia|].
    rewrite Hs, N2Nat.inj_succ. replace (S (N.to_nat (N.log2 m)) - 1) with (N.to_nat (N.log2 m)) by lia.
    pose proof (Nat.mul_div_le (N.to_nat (N.log2 m)) 8 ltac:(lia)) as H. lia.
  Qed.

  Lemma chunk_roundtrip c : is_bytes c -> length c <= fit_bytes F ->
    le_bytes (fit_bytes F) (into_bigint F (f_ofN (from_le_bytes c))) = c ++ repeat 0%N (fit_bytes F - length c).
  Proof using HF Hfit.
    intros Hc Hl. rewrite (into_ofN F HF), N.mod_small; [now apply le_from_le|].
    eapply N.lt_le_trans; [apply from_le_lt; exact Hc|]. eapply N.le_trans; [|apply fit_modulus].
    apply N.pow_le_mono_r; lia.
  Qed.

  Lemma chunks_roundtrip : forall fuel b, is_bytes b -> length b <= fuel -> exists z,
    flat_map (fun fe => le_bytes (fit_bytes F) (into_bigint F fe)) (map (fun c => f_ofN (from_le_bytes c)) (chunks_fuel fuel (fit_bytes F) b)) = b ++ repeat 0%N z.
  Proof using HF Hfit.
    induction fuel as [|fuel IH]; intros b Hb Hl.
    - destruct b; [exists 0; reflexivity|cbn in Hl; lia].
    - cbn [chunks_fuel]. destruct b as [|x b]; [exists 0; reflexivity|]. set (l := x :: b) in *. cbn [map flat_map].
      assert (H1 : is_bytes (firstn (fit_bytes F) l)) by (rewrite <- (firstn_skipn (fit_bytes F) l) in Hb; apply Forall_app in Hb; tauto).
      assert (H2 : is_bytes (skipn (fit_bytes F) l)) by (rewrite <- (firstn_skipn (fit_bytes F) l) in Hb; apply Forall_app in Hb; tauto).
      rewrite chunk_roundtrip by (auto; rewrite firstn_length; lia).
      destruct (Nat.le_gt_cases (fit_bytes F) (length l)) as [Hle|Hgt].
      + destruct (IH (skipn (fit_bytes F) l) H2) as [z Hz]; [rewrite skipn_length; lia|].
        exists z. rewrite Hz, firstn_length, Nat.min_l by lia. rewrite Nat.sub_diag. cbn [repeat]. rewrite app_nil_r, app_assoc, firstn_skipn. reflexivity.
      + exists (fit_bytes F - length l). rewrite firstn_all2, skipn_all2 by lia. rewrite chunks_fuel_nil. cbn [map flat_map]. now rewrite app_nil_r.
  Qed.

  Lemma to_fe_ok b : to_field_elements F b = Ok (map (fun c => f_ofN (from_le_bytes c)) (chunks_fuel (length b) (fit_bytes F) b)).
  Proof using Hfit. unfold to_field_elements. now rewrite chunks_ok by exact Hfit. Qed.
  Lemma to_fe_length b l : to_field_elements F b = Ok l -> length l = input_vec_len F (length b).
  Proof using Hfit.
    rewrite to_fe_ok. intros [= <-]. rewrite map_length. unfold input_vec_len. apply chunks_fuel_length. now rewrite repeat_length.
  Qed.
  Lemma to_fe_bytes b l : is_bytes b -> to_field_elements F b = Ok l -> input_vec_bytes F (length b) l = Ok b.
  Proof using HF Hfit.
    intros Hb. rewrite to_fe_ok. intros [= <-]. unfold input_vec_bytes.
    destruct (chunks_roundtrip (length b) b Hb (le_n _)) as [z ->]. unfold slice_to. rewrite app_length.
    destruct (Nat.leb_spec (length b) (length b + length (repeat 0%N z))); [|lia].
    now rewrite firstn_app, firstn_all, Nat.sub_diag, app_nil_r.
  Qed.
End Enc.

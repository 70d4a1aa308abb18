(** Properties C68 and C82, the part about errors: the programs unwrap what the library and the SNARK return.  A main program has no
    result to return an error in, and an error of the SNARK ends it with a panic. *)
Require Import List Arith NArith ZArith Lia Bool.
Import ListNotations.
Require Import Verif.Outcome Verif.Algebra Verif.Rust Verif.InnerProducts Verif.Commitments
  Verif.Gipa Verif.Poly Verif.Tipa Verif.Ssm Verif.Groth16 Verif.Batch Verif.Bench Verif.GrothMain Verif.Spec Verif.ListFacts
  Verif.Zp Verif.TipaFacts Verif.PropsBase Verif.PropsTipa Verif.PropsGrothMain.

Definition no_err {A} (x : res A) : Prop := forall e, x <> Err e.
Lemma no_err_ok {A} (a : A) : no_err (Ok a). Proof. discriminate. Qed.
Lemma no_err_unwrap {A} (x : res A) : no_err (ok_unwrap x). Proof. now destruct x. Qed.
Lemma no_err_bind {A B} (x : res A) (f : A -> res B) : no_err x -> (forall a, no_err (f a)) -> no_err (do a <- x; f a).
Proof. intros Hx Hf. destruct x as [a|e| |]; cbn; [apply Hf|exfalso; now apply (Hx e)|discriminate|discriminate]. Qed.
Lemma no_err_assert b : no_err (rassert b). Proof. now destruct b. Qed.
Lemma no_err_runwrap {A} (o : option A) : no_err (runwrap o). Proof. now destruct o. Qed.
Lemma no_err_index {A} (l : list A) i : no_err (index l i). Proof. unfold index. now destruct (nth_error l i). Qed.
Lemma no_err_vkey {P} (s : srs P) : no_err (get_verifier_key s).
Proof. unfold get_verifier_key. repeat (apply no_err_bind; [apply no_err_index|intros ?]). apply no_err_ok. Qed.
Lemma no_err_rmapM {A B} (f : A -> res B) l : (forall a, no_err (f a)) -> no_err (rmapM f l).
Proof. intros H. induction l; [apply no_err_ok|]. cbn. apply no_err_bind; [apply H|intros ?]. apply no_err_bind; [exact IHl|intros ?; apply no_err_ok]. Qed.
Lemma no_err_powers {K : field} (l : list nat) (s : K) : forall ys, no_err (scalar_power_loop l s ys).
Proof. induction l; intros ys; [apply no_err_ok|]. cbn. apply no_err_bind; [apply no_err_index|intros ?]. apply IHl. Qed.
Lemma no_err_mml P c : no_err (mml_chunk P c). Proof. unfold mml_chunk. now destruct (_ =? _). Qed.
Ltac ne := repeat match goal with
  | |- no_err (rbind _ _) => apply no_err_bind; [|intros ?]
  | |- no_err (Ok _) => apply no_err_ok
  | |- no_err (ok_unwrap _) => apply no_err_unwrap
  | |- no_err (rassert _) => apply no_err_assert
  | |- no_err (runwrap _) => apply no_err_runwrap
  | |- no_err (index _ _) => apply no_err_index
  | |- no_err (get_verifier_key _) => apply no_err_vkey
  | |- no_err (let (_, _) := ?x in _) => destruct x
  | |- no_err (if ?b then _ else _) => destruct b
  | |- no_err (rmapM _ _) => apply no_err_rmapM; intros ?
  | |- no_err (structured_scalar_power _ _) => apply no_err_powers
  | |- no_err (mml_chunk _ _) => apply no_err_mml
  | |- no_err (match ?o with Some _ => _ | None => _ end) => destruct o
  | p : (_ * _)%type |- _ => destruct p
  end.

Section Mains.
  Context {R : Type} (P : pairing) (E : penv) (D : bytes -> bytes) (fuel : nat).
  Context (rs : sampler R (pK P)) (r1 : sampler R (pG1 P)) (r2 : sampler R (pG2 P)).

  Theorem C82_no_error_inner_products rng len e : inner_products_main P E rs r1 r2 rng len <> Err e.
  Proof. revert e. change (no_err (inner_products_main P E rs r1 r2 rng len)). unfold inner_products_main, bench_inner_product. ne. Qed.
  Theorem C82_no_error_gipa rng len e : gipa_main P E D fuel rs r1 r2 rng len <> Err e.
  Proof. revert e. change (no_err (gipa_main P E D fuel rs r1 r2 rng len)). unfold gipa_main, bench_gipa. ne. Qed.
  Theorem C82_no_error_tipa rng len e : tipa_main P E D fuel rs r1 r2 rng len <> Err e.
  Proof. revert e. change (no_err (tipa_main P E D fuel rs r1 r2 rng len)). unfold tipa_main, bench_tipa, bench_tipa_srs_shift, bench_tipa_ssm. ne. Qed.
  Lemma no_err_trials trial degree n : forall rng, no_err (pc_trials (R := R) P rs trial degree n rng).
  Proof. induction n as [|n IH]; intros rng; cbn [pc_trials]; ne. apply IH. Qed.
  Theorem C82_no_error_poly_commit rng num_trials num_data_points e : poly_commit_main P E D fuel rs r1 r2 rng num_trials num_data_points <> Err e.
  Proof.
    revert e. change (no_err (poly_commit_main P E D fuel rs r1 r2 rng num_trials num_data_points)). unfold poly_commit_main.
    generalize (map (fun i => 4 ^ (i + 1) - 1) (seq 0 num_data_points)). intros l. induction l as [|d l IH]; cbn [poly_commit_loop]; [apply no_err_ok|].
    unfold bench_kzg, bench_ipa, bench_transparent_ipa. ne; try apply no_err_trials. exact IH.
  Qed.

  (** *** The Groth16 example *)
  Section Example.
    Variable TS : snark R P (test_circuit P).
    Lemma no_err_example_proofs pk m n : forall rng, no_err (example_proofs P rs TS pk m n rng).
    Proof. induction n as [|n IH]; intros rng; cbn [example_proofs]; [apply no_err_ok|]. unfold example_one. ne. apply IH. Qed.
    Theorem C82_no_error_groth16_example m n rng e : g16_example_main P E D fuel rs r1 r2 TS m n rng <> Err e.
    Proof. revert e. change (no_err (g16_example_main P E D fuel rs r1 r2 TS m n rng)). unfold g16_example_main. ne. apply no_err_example_proofs. Qed.

    (** the circuit that the loop draws: the inputs, the witness and the sum of all *)
    Definition drawn_circuit (m : nat) (rng : R) : test_circuit P * R :=
      let (xs, rng) := random_generators rs rng m in let (w, rng) := rs rng in (mk_test_circuit xs w (w +f fold_left fadd xs f0), rng).
    (** the state of the generator before the i-th proof, if all earlier proofs succeed *)
    Inductive before_proof (pk : sn_pk TS) (m : nat) : nat -> R -> R -> Prop :=
    | before_first rng : before_proof pk m 0 rng rng
    | before_next i rng pf rng' rng'' : sn_prove TS pk (fst (drawn_circuit m rng)) (snd (drawn_circuit m rng)) = Ok (pf, rng') ->
        before_proof pk m i rng' rng'' -> before_proof pk m (S i) rng rng''.

    Theorem C68_example_snark_error m n rng : 0 < n ->
      (forall e, sn_setup TS (mk_test_circuit (repeat f0 m) f0 f0) rng = Err e -> g16_example_main P E D fuel rs r1 r2 TS m n rng = Panic) /\
      (forall pk rng1 s rng2 i rng3 e, sn_setup TS (mk_test_circuit (repeat f0 m) f0 f0) rng = Ok (pk, rng1) -> g16_setup P rs rng1 n = Ok (s, rng2) ->
         i < n -> before_proof pk m i rng2 rng3 -> sn_prove TS pk (fst (drawn_circuit m rng3)) (snd (drawn_circuit m rng3)) = Err e ->
         g16_example_main P E D fuel rs r1 r2 TS m n rng = Panic).
    Proof.
      intros Hn. unfold g16_example_main. split.
      - intros e ->. reflexivity.
      - intros pk rng1 s rng2 i rng3 e -> Hs Hi Hb He. cbn [ok_unwrap rbind]. rewrite Hs. cbn [ok_unwrap rbind].
        assert (H : example_proofs P rs TS pk m n rng2 = Panic); [|now rewrite H].
        clear - Hi Hb He. revert n Hi. induction Hb as [g|i g pf g' g'' Hp Hb IH]; intros n Hi; (destruct n as [|n]; [lia|]); cbn [example_proofs]; unfold example_one.
        + unfold drawn_circuit in He. destruct (random_generators rs g m) as [xs g1]. destruct (rs g1) as [w g2]. cbn [fst snd] in He. now rewrite He.
        + unfold drawn_circuit in Hp. destruct (random_generators rs g m) as [xs g1]. destruct (rs g1) as [w g2]. cbn [fst snd] in Hp. rewrite Hp. cbn [ok_unwrap rbind].
          now rewrite (IH He n ltac:(lia)).
    Qed.
  End Example.

  (** *** The Groth16 benchmark *)
  Section Benchmark.
    Variables (HI HO : Type) (rand_hash_input : sampler R HI) (hash : HI -> HO) (default_input : HI) (default_output : HO) (to_fe : HO -> list (pK P)).
    Context {R0 : Type}.
    Variables (seed_from_u64 : N -> R0) (rand_u128 : sampler R0 N) (Q : pairing).
    Variables (SS : snark R P (HI * HO)) (SM : snark R P (list HI * list HO)) (SA : snark R Q (list HO * list (g16_proof P) * g16_vk P)).
    Variable pack : list HO -> list (pK Q).
    Notation bench := (g16_bench_main P E D fuel rs r1 r2 HI HO rand_hash_input hash default_input default_output to_fe seed_from_u64 rand_u128 Q SS SM SA pack).

    Lemma no_err_verify_one P' vk inputs pf : no_err (g16_verify_one P' vk inputs pf).
    Proof. unfold g16_verify_one, batch_input. ne. Qed.
    Lemma no_err_bench_proofs pk all l : forall rng, no_err (bench_proofs P HI HO SS pk all l rng).
    Proof. induction l as [|io l IH]; intros rng; cbn [bench_proofs]; ne. apply IH. Qed.
    Lemma no_err_bench_aggregate n s v vk inputs pfs : no_err (bench_aggregate P E D fuel r1 r2 n s v vk inputs pfs).
    Proof. induction n as [|n IH]; cbn [bench_aggregate]; ne. exact IH. Qed.
    Lemma no_err_bench_recursive n pk c inputs : forall rng, no_err (bench_recursive P HO Q SA n pk c inputs rng).
    Proof. induction n as [|n IH]; intros rng; cbn [bench_recursive]; ne; [apply no_err_verify_one|apply IH]. Qed.
    Theorem C82_no_error_groth16_bench trials n rec all mono rng e : bench trials n rec all mono rng <> Err e.
    Proof.
      revert e. change (no_err (bench trials n rec all mono rng)). unfold g16_bench_main, bench_copies, batch_verify_proof, batch_input.
      ne; try apply no_err_bench_proofs; try apply no_err_bench_aggregate; try apply no_err_bench_recursive; try apply no_err_verify_one.
    Qed.

    (** the first proof of the benchmark is for the first hash input *)
    Theorem C68_bench_snark_error trials n rec all mono rng : 0 < n ->
      (forall e, sn_setup SS (default_input, default_output) (snd (random_generators rand_hash_input rng n)) = Err e ->
         bench trials n rec all mono rng = Panic) /\
      (forall pk rng1 i e, sn_setup SS (default_input, default_output) (snd (random_generators rand_hash_input rng n)) = Ok (pk, rng1) ->
         nth_error (fst (random_generators rand_hash_input rng n)) 0 = Some i -> sn_prove SS pk (i, hash i) rng1 = Err e ->
         bench trials n rec all mono rng = Panic).
    Proof.
      intros Hn. unfold g16_bench_main. destruct (random_generators rand_hash_input rng n) as [ins g]. cbn [fst snd]. split.
      - intros e ->. reflexivity.
      - intros pk rng1 i e -> Hi He. destruct ins as [|i' ins]; [discriminate|]. injection Hi as ->. cbn [ok_unwrap rbind map combine bench_proofs].
        rewrite He. reflexivity.
    Qed.
  End Benchmark.
End Mains.
Print Assumptions C82_no_error_inner_products.
Print Assumptions C82_no_error_gipa.
Print Assumptions C82_no_error_tipa.
Print Assumptions C82_no_error_poly_commit.
Print Assumptions C82_no_error_groth16_example.
Print Assumptions C82_no_error_groth16_bench.
Print Assumptions C68_example_snark_error.
Print Assumptions C68_bench_snark_error.

(** a SNARK whose second proof fails: the example panics *)
Definition ex68_snark : snark Z ZPair (test_circuit ZPair) := mk_snark (R := Z) (P := ZPair) unit
  (fun _ => mk_g16_vk (P := ZPair) (zq 2%Z) (zq 3%Z) (zq 5%Z) (zq 7%Z) (zl [1; 4]%Z)) (fun _ n => Ok (tt, n))
  (fun _ _ n => if (n =? 8)%Z then Err ArgInnerProductInvalid else Ok (mk_g16_proof (P := ZPair) (zq 1%Z) (zq 1%Z) (zq 1%Z), n)).
Example C68_example_snark_error_example :
  exists s, g16_setup ZPair ex_scalars 2%Z 2 = Ok (s, 4%Z) /\ before_proof ZPair ex_scalars ex68_snark tt 1 1 4%Z 6%Z /\
    sn_prove ex68_snark tt (fst (drawn_circuit ZPair ex_scalars 1 6%Z)) (snd (drawn_circuit ZPair ex_scalars 1 6%Z)) = Err ArgInnerProductInvalid.
Proof.
  eexists. split; [reflexivity|]. split; [|reflexivity]. eapply before_next; [reflexivity|]. apply before_first.
Qed.

(** Property C121, continued: the benchmark program poly_commit.rs with word arithmetic (WordsBench.v) against Report.v. *)
Require Import List Arith NArith ZArith Lia Bool String.
Import ListNotations.
Require Import Verif.Outcome Verif.Algebra Verif.Zp Verif.Rust Verif.InnerProducts Verif.Commitments
  Verif.Gipa Verif.Poly Verif.Tipa Verif.PolyCommit Verif.Transparent Verif.Bench Verif.Cli Verif.Report
  Verif.Words Verif.WordsBench
  Verif.Spec Verif.ListFacts Verif.RustFacts Verif.PropsBase Verif.PropsTipa Verif.PropsReport Verif.PropsWords Verif.PropsWordsPc.
Local Open Scope string_scope.
Local Open Scope list_scope.
Local Open Scope nat_scope.

Lemma pow4 e : 4 ^ e = 2 ^ (2 * e).
Proof. now rewrite Nat.pow_mul_r. Qed.
Lemma cast_small w v e : fits v w -> e <= w -> N.to_nat (N.of_nat e mod 2 ^ N.of_nat v) = e.
Proof. intros Hv He. rewrite N.mod_small; [apply Nat2N.id|]. apply fits_N in Hv. lia. Qed.

Section PolyCommitBench.
  Context {R : Type} {P : pairing}.
  Notation K := (pK P).
  Variables (m : build) (w v k : nat).
  Hypothesis Hv : fits v w.
  Hypothesis Hk : w = 2 * k.
  Variable clock : nat -> N.
  Variables (E : penv) (D : bytes -> bytes) (fuel : nat).
  Variables (rand : sampler R K) (r1 : sampler R (pG1 P)) (r2 : sampler R (pG2 P)).
  Notation loop := (poly_commit_csv_loop clock P E D fuel rand r1 r2).
  Notation loop_w := (poly_commit_csv_loop_w m w v clock P E D fuel rand r1 r2).

  (** the rows [out], then a panic unless the run has stopped already *)
  Definition then_panic {A} (run : list (list string) * res A) : list (list string) * res A :=
    match snd run with Ok _ => (fst run, Panic) | _ => run end.

  Lemma degree_fits i : i < k -> wadd m w i 1 = Ok (i + 1) /\ 
    rbind (wadd m w i 1) (wpow4 m w v) = word m w (4 ^ (i + 1)).
  Proof using Hv Hk.
    intros Hi. assert (H : wadd m w i 1 = Ok (i + 1)).
    { unfold wadd. apply word_fits. unfold fits. pose proof (Nat.pow_gt_lin_r 2 w). lia. }
    split; [exact H|]. rewrite H. cbn [rbind]. unfold wpow4. rewrite (cast_small w) by (auto; lia). reflexivity.
  Qed.

  Lemma loop_w_fits rng0 t s : wadd m w t 1 = Ok s -> forall points out, Forall (fun i => i + 1 < k) points ->
    loop_w points rng0 t out = loop (map (fun i => 4 ^ (i + 1) - 1) points) rng0 (s - 1) out.
  Proof using Hv Hk.
    intros Ht. induction points as [|i points IH]; intros out Hp; [reflexivity|].
    apply Forall_cons_iff in Hp as [Hi Hp]. cbn [poly_commit_csv_loop_w poly_commit_csv_loop map].
    destruct (degree_fits i) as [H1 H2]; [lia|]. rewrite H1 in H2 |- *. cbn [rbind] in H2.
    assert (Hf : fits w (4 ^ (i + 1))) by (unfold fits; rewrite pow4; apply Nat.pow_lt_mono_r; lia).
    unfold pbind at 1, quiet at 1. rewrite H2, word_fits by exact Hf. unfold pbind at 1, quiet at 1.
    assert (Hn : 1 <= 4 ^ (i + 1)) by (rewrite pow4; apply pow2_pos).
    rewrite wsub_ok by exact Hn. unfold pbind at 1, quiet at 1.
    assert (Hd : fits w (4 ^ (i + 1) - 1 + 1)) by (replace (4 ^ (i + 1) - 1 + 1) with (4 ^ (i + 1)) by lia; exact Hf).
    generalize dependent (4 ^ (i + 1) - 1). intros d Hd. clear H2 Hf Hn.
    assert (Hb : bench_kzg_csv_w m w clock P rand rng0 d t out = bench_kzg_csv clock P rand rng0 d (s - 1) out).
    { unfold bench_kzg_csv_w, bench_kzg_csv, kzg_setup_w, kzg_setup. rewrite Ht. unfold wadd.
      rewrite (word_fits _ _ (d + 1)) by assumption. cbn [rbind].
      unfold pbind, quiet. destruct (ok_unwrap _) as [[[powers vs] rng]| | |]; [|reflexivity..].
      destruct (record_time clock _ 1 out) as [o [?| | |]]; reflexivity. }
    unfold pbind, quiet. rewrite Hb. destruct (bench_kzg_csv clock P rand rng0 d (s - 1) out) as [out1 [?| | |]]; [|reflexivity..]. rewrite Ht.
    destruct (bench_ipa_csv clock P E D fuel rand r2 rng0 d (s - 1) out1) as [out2 [?| | |]]; [|reflexivity..].
    destruct (bench_transparent_csv clock P E D fuel rand r1 r2 rng0 d (s - 1) out2) as [out3 [?| | |]]; [|reflexivity..].
    apply IH, Hp.
  Qed.

  Lemma loop_w_app rng0 t : forall l1 l2 out, loop_w (l1 ++ l2) rng0 t out = pbind (loop_w l1 rng0 t) (fun _ => loop_w l2 rng0 t) out.
  Proof using.
    induction l1 as [|i l1 IH]; intros l2 out; [reflexivity|]. cbn [poly_commit_csv_loop_w Datatypes.app].
    unfold pbind, quiet. destruct (wadd m w i 1); [|reflexivity..]. destruct (wpow4 m w v a); [|reflexivity..].
    destruct (wsub m w a0 1); [|reflexivity..].
    destruct (bench_kzg_csv_w m w clock P rand rng0 a1 t out) as [out1 [?| | |]]; [|reflexivity..].
    destruct (wadd m w t 1); [|reflexivity..].
    destruct (bench_ipa_csv clock P E D fuel rand r2 rng0 a1 (_ - 1) out1) as [out2 [?| | |]]; [|reflexivity..].
    destruct (bench_transparent_csv clock P E D fuel rand r1 r2 rng0 a1 (_ - 1) out2) as [out3 [?| | |]]; [|reflexivity..].
    rewrite IH. reflexivity.
  Qed.

  (** 4^k is 2^w *)
  Lemma loop_w_over rng0 t points out : 0 < k -> loop_w ((k - 1) :: points) rng0 t out = (out, Panic).
  Proof using Hv Hk.
    intros H0. cbn [poly_commit_csv_loop_w]. destruct (degree_fits (k - 1)) as [H1 H2]; [lia|]. rewrite H1 in H2 |- *. cbn [rbind] in H2.
    unfold pbind at 1, quiet at 1. rewrite H2. replace (k - 1 + 1) with k by lia. rewrite pow4, <- Hk.
    rewrite word_over by (unfold fits; lia). destruct m; [reflexivity|].
    rewrite Nat.mod_same by (apply Nat.pow_nonzero; lia). unfold pbind at 1, quiet at 1.
    destruct (pred_succ_release w 0) as (d & D1 & D2); [apply pow2_pos|]. rewrite D1. unfold pbind at 1, quiet at 1.
    unfold pbind at 1, bench_kzg_csv_w, kzg_setup_w. destruct (rand rng0) as [alpha rng1]. destruct (rand rng1) as [beta rng2].
    rewrite D2. reflexivity.
  Qed.

  Lemma program_w_same rng0 args t n s out : 0 < k -> pc_bench_args args = Ok (Some (t, n)) -> wadd m w (N.to_nat t) 1 = Ok s ->
    forall args', (N.to_nat n < k -> pc_bench_args args' = Ok (Some (N.of_nat (s - 1), n)) ->
      poly_commit_program_w m w v clock P E D fuel rand r1 r2 rng0 args out = poly_commit_program clock P E D fuel rand r1 r2 rng0 args' out) /\
    (k <= N.to_nat n -> pc_bench_args args' = Ok (Some (N.of_nat (s - 1), N.of_nat (k - 1))) ->
      poly_commit_program_w m w v clock P E D fuel rand r1 r2 rng0 args out =
      then_panic (poly_commit_program clock P E D fuel rand r1 r2 rng0 args' out)).
  Proof using Hv Hk.
    intros H0 Ha Ht args'. unfold poly_commit_program_w, poly_commit_program. rewrite Ha. split; intros Hn Ha'; rewrite Ha'.
    - unfold pbind, quiet, record. rewrite Nat2N.id. apply loop_w_fits; [exact Ht|]. apply Forall_forall. intros i Hi. apply in_seq in Hi. lia.
    - unfold pbind, quiet, record. rewrite !Nat2N.id.
      replace (N.to_nat n) with ((k - 1) + (1 + (N.to_nat n - k))) by lia. rewrite seq_app. cbn [Nat.add seq].
      rewrite loop_w_app. unfold pbind. rewrite (loop_w_fits _ _ s); [|exact Ht|].
      + destruct (loop _ rng0 (s - 1) _) as [out1 [[]| | |]]; [|reflexivity..]. now rewrite loop_w_over.
      + apply Forall_forall. intros i Hi. apply in_seq in Hi. lia.
  Qed.

  Theorem C121_poly_commit_bench rng0 args t n out : 0 < k -> pc_bench_args args = Ok (Some (t, n)) -> fits w (N.to_nat t + 1) ->
    (N.to_nat n < k -> poly_commit_program_w m w v clock P E D fuel rand r1 r2 rng0 args out =
                       poly_commit_program clock P E D fuel rand r1 r2 rng0 args out) /\
    (k <= N.to_nat n -> forall args', pc_bench_args args' = Ok (Some (t, N.of_nat (k - 1))) ->
      poly_commit_program_w m w v clock P E D fuel rand r1 r2 rng0 args out =
      then_panic (poly_commit_program clock P E D fuel rand r1 r2 rng0 args' out)).
  Proof using Hv Hk.
    intros H0 Ha Ht. apply (word_fits m) in Ht. assert (Hs : N.of_nat (N.to_nat t + 1 - 1) = t) by lia.
    split; [intros Hn|intros Hn args' Ha'].
    - eapply (proj1 (program_w_same rng0 args t n _ out H0 Ha Ht args)); [exact Hn|]. now rewrite Hs.
    - eapply (proj2 (program_w_same rng0 args t n _ out H0 Ha Ht args')); [exact Hn|]. now rewrite Hs.
  Qed.

  (** [num_trials] = usize::MAX and at least one data point: [1..num_trials + 1] panics after the first setup, or is empty *)
  Theorem C121_poly_commit_bench_max rng0 args t n out : 1 < k -> pc_bench_args args = Ok (Some (t, n)) -> N.to_nat t + 1 = 2 ^ w ->
    0 < N.to_nat n -> match m with
    | Debug => poly_commit_program_w m w v clock P E D fuel rand r1 r2 rng0 args out =
        (fst (record_time clock (pc_cells 1 "kzg" "setup" 3) 1 (out ++ [pc_header])), Panic)
    | Release => forall args',
      (N.to_nat n < k -> pc_bench_args args' = Ok (Some (0%N, n)) ->
        poly_commit_program_w m w v clock P E D fuel rand r1 r2 rng0 args out = poly_commit_program clock P E D fuel rand r1 r2 rng0 args' out) /\
      (k <= N.to_nat n -> pc_bench_args args' = Ok (Some (0%N, N.of_nat (k - 1))) ->
        poly_commit_program_w m w v clock P E D fuel rand r1 r2 rng0 args out =
        then_panic (poly_commit_program clock P E D fuel rand r1 r2 rng0 args' out))
    end.
  Proof using Hv Hk.
    intros H1 Ha Ht Hn. destruct m eqn:Em.
    - unfold poly_commit_program_w. rewrite Ha. unfold pbind, quiet, record. destruct (N.to_nat n) as [|n'] eqn:En; [lia|].
      cbn [seq poly_commit_csv_loop_w]. pose proof (degree_fits 0) as Hd. rewrite Em in Hd. destruct Hd as [D1 D2]; [lia|].
      rewrite D1 in D2 |- *. cbn [rbind] in D2.
      assert (Hf : fits w 4) by (unfold fits; change 4 with (2 ^ 2); apply (Nat.pow_lt_mono_r 2 2 w); lia).
      unfold pbind, quiet. rewrite D2. change (4 ^ (0 + 1)) with 4. rewrite word_fits by exact Hf. rewrite wsub_ok by lia. cbn [Nat.sub].
      unfold bench_kzg_csv_w, kzg_setup_w, pbind, quiet. destruct (rand rng0) as [alpha rng1]. destruct (rand rng1) as [beta rng2].
      unfold wadd. rewrite (word_fits _ _ (3 + 1)) by exact Hf. cbn [rbind structured_generators_scalar_power rassert Nat.ltb Nat.leb Nat.add ok_unwrap runwrap].
      rewrite Ht, word_over by (unfold fits; lia). unfold record_time. reflexivity.
    - assert (Hs : wadd m w (N.to_nat t) 1 = Ok 0).
      { unfold wadd. rewrite Ht, word_over, Em by (unfold fits; lia). now rewrite Nat.mod_same by (apply Nat.pow_nonzero; lia). }
      intros args'. rewrite <- Em. split; intros Hc Ha'.
      + now apply (proj1 (program_w_same rng0 args t n 0 out ltac:(lia) Ha Hs args')).
      + now apply (proj2 (program_w_same rng0 args t n 0 out ltac:(lia) Ha Hs args')).
  Qed.
End PolyCommitBench.
Print Assumptions C121_poly_commit_bench.
Print Assumptions C121_poly_commit_bench_max.

Definition ex121_pc (m : build) (w : nat) (args : list string) : list row * res unit :=
  poly_commit_program_w m w 32 ex_clock ZPair ex_env toy_digest 9 ex_scalars ex_scalars ex_scalars 2%Z args [].
(** words of 4 bits: one data point is measured, of two or more only the first; 64 bits: the same table as Report.v's *)
Example C121_example_poly_commit_bench :
  (fits 32 64 /\ 64 = 2 * 32 /\ fits 64 (1 + 1)) /\ (fits 32 4 /\ 4 = 2 * 2 /\ fits 4 (1 + 1)) /\
  pc_bench_args ["pc"; "1"; "3"] = Ok (Some (1, 3)%N) /\
  List.length (fst (ex_pc ["pc"; "1"; "1"])) = 13 /\ snd (ex_pc ["pc"; "1"; "1"]) = Ok tt /\
  map (fun m => ex121_pc m 64 ["pc"; "1"; "1"]) [Debug; Release] = repeat (ex_pc ["pc"; "1"; "1"]) 2 /\
  map (fun m => ex121_pc m 4 ["pc"; "1"; "1"]) [Debug; Release] = repeat (ex_pc ["pc"; "1"; "1"]) 2 /\
  map (fun m => ex121_pc m 4 ["pc"; "1"; "2"]) [Debug; Release] = repeat (fst (ex_pc ["pc"; "1"; "1"]), Panic) 2 /\
  map (fun m => ex121_pc m 4 ["pc"; "1"; "3"]) [Debug; Release] = repeat (fst (ex_pc ["pc"; "1"; "1"]), Panic) 2.
Proof.
  split; [split; [exact fits_32_64|split; [reflexivity|now apply fits_64_small]]|].
  split; [split; [unfold fits; apply (Nat.lt_le_trans _ (2 ^ 4)); [vm_compute; lia|apply Nat.pow_le_mono_r; lia]|split; [reflexivity|unfold fits; vm_compute; lia]]|].
  repeat split; vm_compute; reflexivity.
Qed.
(** 15 is the largest number of 4 bits *)
Example C121_example_poly_commit_bench_max :
  1 < 2 /\ pc_bench_args ["pc"; "15"; "1"] = Ok (Some (15, 1)%N) /\ N.to_nat 15 + 1 = 2 ^ 4 /\
  ex121_pc Debug 4 ["pc"; "15"; "1"] = ([pc_header; ["1"; "kzg"; "setup"; "3"; "100"]], Panic) /\
  ex121_pc Release 4 ["pc"; "15"; "1"] = ex_pc ["pc"; "0"; "1"] /\
  ex_pc ["pc"; "0"; "1"] = ([pc_header; ["1"; "kzg"; "setup"; "3"; "100"]; ["1"; "ipa"; "setup"; "3"; "200"];
    ["1"; "transparent_ipa"; "setup"; "3"; "300"]], Ok tt).
Proof. split; [lia|]. repeat split; vm_compute; reflexivity. Qed.

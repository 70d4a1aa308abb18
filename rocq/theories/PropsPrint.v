(** C113: what the programs print: the lines, how many of them for each way the program ends, and that printing changes nothing else. *)
Require Import List Arith NArith ZArith Lia Bool String Ascii.
Require Import Coq.Floats.SpecFloat.
Import ListNotations.
Require Import Verif.Outcome Verif.Algebra Verif.Zp Verif.Rust Verif.InnerProducts Verif.Commitments
  Verif.Poly Verif.Gipa Verif.Tipa Verif.Ssm Verif.Floats Verif.Rng Verif.Sipp Verif.Groth16 Verif.Bench Verif.GrothMain Verif.Cli Verif.Report Verif.Scaling Verif.Print
  Verif.Spec Verif.ListFacts Verif.RustFacts Verif.InnerProductFacts Verif.CommitFacts Verif.GipaFacts Verif.GipaTop Verif.KeyFacts Verif.TipaFacts Verif.SsmFacts Verif.PolyFacts Verif.Groth16Facts Verif.PropsBase Verif.PropsGipa Verif.PropsTipa Verif.PropsGroth Verif.PropsSipp Verif.PropsBench Verif.PropsGrothMain Verif.PropsCli Verif.PropsScaling Verif.PropsRuns Verif.PropsErrors Verif.Circuits Verif.CircuitFacts.
Local Open Scope string_scope.
Local Open Scope list_scope.

(** ** The texts *)
Definition words (s : string) : list cell := [Text s].
(** a line with a time: the milliseconds of the clock when this line, number [k] of the output, is printed *)
Definition timed (clock : nat -> N) (k : nat) (s : string) : list cell := [Text (s ++ dec (clock k) ++ " ms")].
Definition proving : string := String "009" " proving time: ".
Definition verification : string := String "009" " verification time: ".
Definition gipa_text (clock : nat -> N) (len : nat) : list (list cell) :=
  [words ("Benchmarking GIPA with vector length: " ++ dec (N.of_nat len));
   words "1) Pairing inner product..."; timed clock 2 proving; timed clock 3 verification;
   words "2) Multiexponentiation G1 inner product..."; timed clock 5 proving; timed clock 6 verification].
Definition tipa_text (clock : nat -> N) (len : nat) : list (list cell) :=
  [words ("Benchmarking TIPA with vector length: " ++ dec (N.of_nat len));
   words "1) Pairing inner product..."; timed clock 2 proving; timed clock 3 verification;
   words "2) Multiexponentiation G1 inner product..."; timed clock 5 proving; timed clock 6 verification;
   words "3) Pairing inner product with SRS shift..."; timed clock 8 proving; timed clock 9 verification;
   words "4) Multiexponentiation G1 inner product with structured scalar message..."; timed clock 11 proving; timed clock 12 verification].
Definition inner_products_text (clock : nat -> N) (len : nat) : list (list cell) :=
  let time := String "009" " time: " in
  [words ("Benchmarking inner products with vector length: " ++ dec (N.of_nat len));
   words "1) Pairing inner product..."; timed clock 2 time;
   words "2) Multiexponentiation G1 inner product..."; timed clock 4 time;
   words "3) Multiexponentiation G2 inner product..."; timed clock 6 time].
Definition example_text (clock : nat -> N) (num_proofs : nat) : list (list cell) :=
  [words ("Generating " ++ dec (N.of_nat num_proofs) ++ " Groth16 proofs...");
   words ("Aggregating " ++ dec (N.of_nat num_proofs) ++ " Groth16 proofs...");
   words "Verifying aggregated proof...";
   timed clock 3 "Proof generation time: "; timed clock 4 "Proof aggregation time: "; timed clock 5 "Proof verification time: "].

(** the number of times that are printed for a run that makes a proof and verifies it: both, one if a proof is made but the
    verification does not answer, none if there is no proof *)
Definition times {A B} (made : res A) (run : res B) : nat := match run, made with Ok _, _ => 2 | _, Ok _ => 1 | _, _ => 0 end.

(** ** The four measured functions *)
Lemma rbind_assoc {A B C} (x : res A) (f : A -> res B) (g : B -> res C) :
  rbind (rbind x f) g = rbind x (fun a => rbind (f a) g).
Proof. now destruct x. Qed.

Section Measured.
  Variable clock : nat -> N.
  (** the lines of a run that makes a proof and verifies it *)
  Definition two_times {A B} (made : res A) (run : res B) (out : list line) : list line :=
    out ++ firstn (times made run) [timed clock (List.length out) proving; timed clock (List.length out + 1) verification].
  Lemma says {A B} (made : res A) (check : A -> res B) out :
    and_then (silent made) (fun a => and_then (println_ms clock (tab ++ " proving time: ")) (fun _ =>
      and_then (silent (check a)) (fun b => and_then (println_ms clock (tab ++ " verification time: ")) (fun _ => silent (Ok b))))) out =
    (two_times made (rbind made check) out, rbind made check).
  Proof.
    unfold and_then, silent, println_ms, two_times. destruct made as [a|e| |]; cbn [rbind times firstn]; rewrite ?app_nil_r; try reflexivity.
    destruct (check a) as [b|e| |]; cbn [times firstn]; try reflexivity.
    rewrite <- app_assoc, app_length. cbn [List.length app]. reflexivity.
  Qed.
End Measured.

Section Factor.
  Variable clock : nat -> N.
  Section G.
    Context {R : Type} {K : field} {MA MB MT KA KB KT : module K} {OA OB OT : carrier K}.
    Variables (LMC : dhc R MA KA OA) (RMC : dhc R MB KB OB) (IPC : dhc R MT KT OT).
    Variables (ip : list MA -> list MB -> res MT) (D : bytes -> bytes) (fuel : nat).
    Variables (rand_l : sampler R MA) (rand_r : sampler R MB).
    Lemma bench_gipa_says rng len out : bench_gipa_print clock LMC RMC IPC ip D fuel rand_l rand_r rng len out =
      (two_times clock (gipa_proved LMC RMC IPC ip D fuel rand_l rand_r rng len) (bench_gipa LMC RMC IPC ip D fuel rand_l rand_r rng len) out,
       bench_gipa LMC RMC IPC ip D fuel rand_l rand_r rng len).
    Proof.
      assert (H : bench_gipa LMC RMC IPC ip D fuel rand_l rand_r rng len =
        do (ck_l, ck_r, ck_t, com, proof, rng) <- gipa_proved LMC RMC IPC ip D fuel rand_l rand_r rng len;
        do b <- ok_unwrap (gipa_verify LMC RMC IPC ip D fuel (ck_l, ck_r, ck_t) com proof); Ok (b, rng)).
      { unfold bench_gipa, gipa_proved. destruct (sample_pairs rand_l rand_r rng len) as [[l r] rng1].
        repeat (match goal with |- rbind ?x _ = _ => destruct x as [?| | |]; try reflexivity end;
                repeat match goal with x : (_ * _)%type |- _ => destruct x end; cbn [rbind]).
        all: reflexivity. }
      rewrite H. rewrite <- says. unfold bench_gipa_print, and_then, silent.
      destruct (gipa_proved _ _ _ _ _ _ _ _ _ _) as [[[[[[k1 k2] k3] com] proof] rng1]| | |]; try reflexivity.
      cbn. destruct (ok_unwrap _); reflexivity.
    Qed.
  End G.
  Section T.
    Context {R : Type} {P : pairing} {MA MB MT KT : module (pK P)} {OA OB OT : carrier (pK P)}.
    Variables (LMC : dhc R MA (pG2 P) OA) (RMC : dhc R MB (pG1 P) OB) (IPC : dhc R MT KT OT).
    Variables (ip : list MA -> list MB -> res MT) (D : bytes -> bytes) (fuel : nat).
    Variables (rand_l : sampler R MA) (rand_r : sampler R MB) (rand_scalar : sampler R (pK P)).
    Lemma bench_tipa_says rng len out : bench_tipa_print clock LMC RMC IPC ip D fuel rand_l rand_r rand_scalar rng len out =
      (two_times clock (tipa_proved LMC RMC IPC ip D fuel rand_l rand_r rand_scalar rng len) (bench_tipa LMC RMC IPC ip D fuel rand_l rand_r rand_scalar rng len) out,
       bench_tipa LMC RMC IPC ip D fuel rand_l rand_r rand_scalar rng len).
    Proof.
      assert (H : bench_tipa LMC RMC IPC ip D fuel rand_l rand_r rand_scalar rng len =
        do (v, ck_t, com, proof, rng) <- tipa_proved LMC RMC IPC ip D fuel rand_l rand_r rand_scalar rng len;
        do b <- ok_unwrap (tipa_verify LMC RMC IPC ip D fuel v ck_t com proof); Ok (b, rng)).
      { unfold bench_tipa, tipa_proved. destruct (sample_pairs rand_l rand_r rng len) as [[l r] rng1].
        destruct (ok_unwrap (tipa_setup _ _ _ _)) as [[[s kt] rng2]| | |]; try reflexivity. cbn [rbind].
        destruct (get_commitment_keys s) as [k1 k2].
        repeat (match goal with |- rbind ?x _ = _ => destruct x as [?| | |]; try reflexivity end; cbn [rbind]). }
      rewrite H. rewrite <- says. unfold bench_tipa_print, and_then, silent.
      destruct (tipa_proved _ _ _ _ _ _ _ _ _ _ _) as [[[[[v kt] com] proof] rng1]| | |]; try reflexivity.
      cbn. destruct (ok_unwrap _); reflexivity.
    Qed.
    Lemma bench_shift_says rng len out : bench_shift_print clock LMC RMC IPC ip D fuel rand_l rand_r rand_scalar rng len out =
      (two_times clock (shift_proved LMC RMC IPC ip D fuel rand_l rand_r rand_scalar rng len) (bench_tipa_srs_shift LMC RMC IPC ip D fuel rand_l rand_r rand_scalar rng len) out,
       bench_tipa_srs_shift LMC RMC IPC ip D fuel rand_l rand_r rand_scalar rng len).
    Proof.
      assert (H : bench_tipa_srs_shift LMC RMC IPC ip D fuel rand_l rand_r rand_scalar rng len =
        do (v, ck_t, com, proof, a, rng) <- shift_proved LMC RMC IPC ip D fuel rand_l rand_r rand_scalar rng len;
        do b <- ok_unwrap (tipa_verify_with_srs_shift LMC RMC IPC ip D fuel v ck_t com proof a); Ok (b, rng)).
      { unfold bench_tipa_srs_shift, shift_proved. destruct (sample_pairs rand_l rand_r rng len) as [[l r] rng1].
        destruct (ok_unwrap (tipa_setup _ _ _ _)) as [[[s kt] rng2]| | |]; try reflexivity. cbn [rbind].
        destruct (get_commitment_keys s) as [k1 k2].
        repeat (match goal with |- rbind ?x _ = _ => destruct x as [?| | |]; try reflexivity end; cbn [rbind]; try destruct (rand_scalar rng2)). }
      rewrite H. rewrite <- says. unfold bench_shift_print, and_then, silent.
      destruct (shift_proved _ _ _ _ _ _ _ _ _ _ _) as [[[[[[v kt] com] proof] a] rng1]| | |]; try reflexivity.
      cbn. destruct (ok_unwrap _); reflexivity.
    Qed.
  End T.
  Section S_.
    Context {R : Type} {P : pairing} {MA MT KT : module (pK P)} {OA OT : carrier (pK P)}.
    Variables (LMC : dhc R MA (pG2 P) OA) (IPC : dhc R MT KT OT).
    Variables (ip : list MA -> list (fmod (pK P)) -> res MT) (D : bytes -> bytes) (fuel : nat) (E : penv).
    Variables (rand_l : sampler R MA) (rand_scalar : sampler R (pK P)).
    Lemma bench_ssm_says rng len out : bench_ssm_print clock LMC IPC ip D fuel E rand_l rand_scalar rng len out =
      (two_times clock (ssm_proved LMC IPC ip D fuel rand_l rand_scalar rng len) (bench_tipa_ssm LMC IPC ip D fuel E rand_l rand_scalar rng len) out,
       bench_tipa_ssm LMC IPC ip D fuel E rand_l rand_scalar rng len).
    Proof.
      assert (H : bench_tipa_ssm LMC IPC ip D fuel E rand_l rand_scalar rng len =
        do (v, ck_t, com, scalar, proof, rng) <- ssm_proved LMC IPC ip D fuel rand_l rand_scalar rng len;
        do b <- ok_unwrap (tssm_verify LMC IPC ip D fuel E v ck_t com scalar proof); Ok (b, rng)).
      { unfold bench_tipa_ssm, ssm_proved. destruct (random_generators rand_l rng len) as [l rng1]. destruct (rand_scalar rng1) as [b rng2].
        destruct (structured_scalar_power len b) as [r| | |]; try reflexivity. cbn [rbind].
        destruct (ok_unwrap (tssm_setup _ _ _ _)) as [[[s kt] rng3]| | |]; try reflexivity. cbn [rbind].
        destruct (get_commitment_keys s) as [k1 k2].
        repeat (match goal with |- rbind ?x _ = _ => destruct x as [?| | |]; try reflexivity end; cbn [rbind]). }
      rewrite H. rewrite <- says. unfold bench_ssm_print, and_then, silent.
      destruct (ssm_proved _ _ _ _ _ _ _ _ _) as [[[[[[v kt] com] scalar] proof] rng1]| | |]; try reflexivity.
      cbn. destruct (ok_unwrap _); reflexivity.
    Qed.
  End S_.
End Factor.

(** ** The programs *)
Section Programs.
  Variable clock : nat -> N.
  Context {R : Type} {P : pairing}.
  Notation K := (pK P).
  Variables (E : penv) (D : bytes -> bytes) (fuel : nat).
  Variables (rand : sampler R K) (r1 : sampler R (pG1 P)) (r2 : sampler R (pG2 P)).
  Notation gc1 := (afgho_g1 P E r2).
  Notation gc2 := (afgho_g2 P E r1).
  Notation sc1 := (pedersen (pG1 P) r1).
  Notation it := (identity (R := R) (pGT P)).
  Notation ig := (identity (R := R) (pG1 P)).

  Definition gipa_count (rng : R) (len : nat) : nat :=
    let made1 := gipa_proved gc1 gc2 it (pairing_ip P E) D fuel r1 r2 rng len in
    let run1 := bench_gipa gc1 gc2 it (pairing_ip P E) D fuel r1 r2 rng len in
    match run1 with
    | Ok (_, rng) =>
      5 + times (gipa_proved gc1 sc1 ig (multiexp_ip (pG1 P)) D fuel r1 rand rng len) (bench_gipa gc1 sc1 ig (multiexp_ip (pG1 P)) D fuel r1 rand rng len)
    | _ => 2 + times made1 run1
    end.
  Theorem C113_gipa rng len : gipa_main_print clock P E D fuel rand r1 r2 rng len [] =
    (firstn (gipa_count rng len) (gipa_text clock len), gipa_main P E D fuel rand r1 r2 rng len).
  Proof.
    unfold gipa_main_print, gipa_main, gipa_count. unfold and_then at 1 2, println. cbn [app].
    unfold and_then at 1. rewrite bench_gipa_says. unfold two_times.
    destruct (bench_gipa gc1 gc2 _ _ _ _ _ _ _ _) as [[b1 rng1]| | |]; cbn [times rbind Nat.add].
    2-4: destruct (gipa_proved _ _ _ _ _ _ _ _ _ _); reflexivity.
    unfold and_then at 1. cbn [app firstn List.length Nat.add].
    unfold and_then at 1. rewrite bench_gipa_says. unfold two_times.
    destruct (bench_gipa _ _ _ _ _ _ _ _ _ _) as [[b2 rng2]| | |]; cbn [times rbind Nat.add]; [reflexivity|..].
    all: destruct (gipa_proved _ _ _ _ _ _ _ _ _ _); reflexivity.
  Qed.

  Definition tipa_count (rng : R) (len : nat) : nat :=
    let run1 := bench_tipa gc1 gc2 it (pairing_ip P E) D fuel r1 r2 rand rng len in
    match run1 with
    | Ok (_, rng) =>
      let run2 := bench_tipa gc1 sc1 ig (multiexp_ip (pG1 P)) D fuel r1 rand rand rng len in
      match run2 with
      | Ok (_, rng) =>
        let run3 := bench_tipa_srs_shift gc1 gc2 it (pairing_ip P E) D fuel r1 r2 rand rng len in
        match run3 with
        | Ok (_, rng) => 11 + times (ssm_proved gc1 ig (multiexp_ip (pG1 P)) D fuel r1 rand rng len) (bench_tipa_ssm gc1 ig (multiexp_ip (pG1 P)) D fuel E r1 rand rng len)
        | _ => 8 + times (shift_proved gc1 gc2 it (pairing_ip P E) D fuel r1 r2 rand rng len) run3
        end
      | _ => 5 + times (tipa_proved gc1 sc1 ig (multiexp_ip (pG1 P)) D fuel r1 rand rand rng len) run2
      end
    | _ => 2 + times (tipa_proved gc1 gc2 it (pairing_ip P E) D fuel r1 r2 rand rng len) run1
    end.
  Theorem C113_tipa rng len : tipa_main_print clock P E D fuel rand r1 r2 rng len [] =
    (firstn (tipa_count rng len) (tipa_text clock len), tipa_main P E D fuel rand r1 r2 rng len).
  Proof.
    unfold tipa_main_print, tipa_main, tipa_count. unfold and_then at 1 2, println. cbn [app].
    unfold and_then at 1. rewrite bench_tipa_says. unfold two_times.
    destruct (bench_tipa gc1 gc2 _ _ _ _ _ _ _ _) as [[b1 rng1]| | |]; cbn [times rbind Nat.add].
    2-4: destruct (tipa_proved _ _ _ _ _ _ _ _ _ _ _); reflexivity.
    unfold and_then at 1. cbn [app firstn List.length Nat.add].
    unfold and_then at 1. rewrite bench_tipa_says. unfold two_times.
    destruct (bench_tipa gc1 sc1 _ _ _ _ _ _ _ _) as [[b2 rng2]| | |]; cbn [times rbind Nat.add].
    2-4: destruct (tipa_proved _ _ _ _ _ _ _ _ _ _ _); reflexivity.
    unfold and_then at 1. cbn [app firstn List.length Nat.add].
    unfold and_then at 1. rewrite bench_shift_says. unfold two_times.
    destruct (bench_tipa_srs_shift _ _ _ _ _ _ _ _ _ _) as [[b3 rng3]| | |]; cbn [times rbind Nat.add].
    2-4: destruct (shift_proved _ _ _ _ _ _ _ _ _ _ _); reflexivity.
    unfold and_then at 1. cbn [app firstn List.length Nat.add].
    unfold and_then at 1. rewrite bench_ssm_says. unfold two_times.
    destruct (bench_tipa_ssm _ _ _ _ _ _ _ _ _ _) as [[b4 rng4]| | |]; cbn [times rbind Nat.add]; [reflexivity|..].
    all: destruct (ssm_proved _ _ _ _ _ _ _ _ _); reflexivity.
  Qed.

  Hypothesis HE : 1 <= threads E.
  (** all lines, whatever the length *)
  Theorem C113_inner_products rng len : inner_products_main_print clock P E rand r1 r2 rng len [] =
    (inner_products_text clock len, inner_products_main P E rand r1 r2 rng len).
  Proof using HE.
    destruct (C64_inner_products E rand r1 r2 HE rng len) as (l1 & l2 & l3 & m1 & m2 & m3 & _ & _ & _ & _ & _ & _ & H).
    revert H. unfold inner_products_main_print, inner_products_main, bench_inner_product_print.
    unfold and_then, silent, println, println_ms.
    destruct (bench_inner_product r1 r2 _ _ _) as [[t1 rng1]| | |]; cbn [rbind]; try discriminate.
    destruct (bench_inner_product r1 rand _ _ _) as [[t2 rng2]| | |]; cbn [rbind]; try discriminate.
    destruct (bench_inner_product r2 rand _ _ _) as [[t3 rng3]| | |]; cbn [rbind]; try discriminate.
    intros _. reflexivity.
  Qed.

  (** A verification time is printed only after the proof was accepted, although the benchmarks drop the answer. *)
  Hypothesis HD : digest16 D.
  Theorem C113_gipa_all rng k : let x := gipa_main_print clock P E D fuel rand r1 r2 rng (2 ^ k) [] in
    x = (gipa_text clock (2 ^ k), Ok [true; true]) \/ (snd x = Loop /\ List.length (fst x) < 7).
  Proof using HE HD.
    cbv zeta. rewrite C113_gipa. cbn [fst snd]. pose proof (C82_gipa E D fuel rand r1 r2 HE HD rng k) as H.
    unfold loops_or, gipa_main, gipa_count in *.
    destruct (bench_gipa gc1 gc2 _ _ _ _ _ _ _ _) as [[b1 rng1]| | |]; cbn [times rbind Nat.add] in *.
    2-4: destruct H as [H|(a & H & _)]; try discriminate H. 2: right; split; [reflexivity|]; destruct (gipa_proved _ _ _ _ _ _ _ _ _ _); cbn; lia.
    destruct (bench_gipa gc1 sc1 _ _ _ _ _ _ _ _) as [[b2 rng2]| | |]; cbn [times rbind Nat.add] in *.
    2-4: destruct H as [H|(a & H & _)]; try discriminate H. 2: right; split; [reflexivity|]; destruct (gipa_proved _ _ _ _ _ _ _ _ _ _); cbn; lia.
    destruct H as [H|(a & [= <-] & H)]; [discriminate|]. left. now rewrite H.
  Qed.

  Lemma shift_zero rng k : shift_scalar rand it r1 r2 rng (2 ^ S k) = f0 ->
    shift_proved gc1 gc2 it (pairing_ip P E) D fuel r1 r2 rand rng (2 ^ S k) = Panic.
  Proof using HE.
    destruct (C08_setups_total R K (pGT P) P E (fun r => (m0, r)) r1 r2) as [_ [_ [_ S5]]].
    unfold shift_proved, shift_scalar. destruct (sample_pairs_length r1 r2 (2 ^ S k) rng) as [Hl Hr].
    destruct (sample_pairs r1 r2 rng (2 ^ S k)) as [[l r] rng1]. cbn [fst snd] in Hl, Hr |- *.
    destruct (setup_total_ok rand it S5 rng1 (2 ^ S k) (pow2_pos _)) as (s & kt & rng2 & ka & kb & v & Hs & Hk & Hka & Hkb & Hv).
    rewrite Hs. cbn [ok_unwrap rbind]. rewrite Hk, Hv. cbn [rbind].
    rewrite (lc_commit _ _ _ (afgho_g1_law P E HE r2)) by congruence. cbn [ok_unwrap rbind].
    rewrite (lc_commit _ _ _ (afgho_g2_law P E HE r1)) by congruence. cbn [ok_unwrap rbind].
    destruct (rand rng2) as [x rng3]. cbn [fst]. intros ->.
    rewrite structured_scalar_power_spec, Nat.max_l by apply pow2_pos. cbn [rbind]. fold (powers (2 ^ S k) (f0 : K)).
    assert (2 <= 2 ^ S k) by (cbn [Nat.pow]; pose proof (pow2_pos k); lia).
    match goal with |- context [rbind ?A _] => replace A with (@Panic (list (pG2 P))) by (symmetry; now apply (inverse_zero ka (2 ^ S k))) end.
    reflexivity.
  Qed.
  (** If the scalar of the third run is 0, the program stops after the title of that run. *)
  Theorem C113_tipa_all rng k : let x := tipa_main_print clock P E D fuel rand r1 r2 rng (2 ^ S k) [] in
    x = (tipa_text clock (2 ^ S k), Ok [true; true; true; true]) \/ (snd x = Loop /\ List.length (fst x) < 13) \/
    (x = (firstn 8 (tipa_text clock (2 ^ S k)), Panic) /\ exists rng', fst (rand rng') = f0).
  Proof using HE HD.
    cbv zeta. rewrite C113_tipa. cbn [fst snd]. pose proof (C82_tipa E D fuel rand r1 r2 HE HD rng k) as H. cbv zeta in H.
    unfold loops_or, tipa_main, tipa_count in *.
    destruct (C08_setups_total R K (pGT P) P E (fun r => (m0, r)) r1 r2) as [_ [_ [_ S5]]].
    destruct (C08_setups_total R K (pG1 P) P E r1 r1 r2) as [_ [_ [_ S4]]].
    pose proof (bench_tipa_run D fuel rand mid mid idout (phi_g1 P) (pr_e P) psi_id (pr_e P)
                gc1 gc2 it (pairing_ip P E) HD (afgho_g1_law P E HE r2) (afgho_g2_law P E HE r1) (identity_law _) (pairing_ip_law P E HE) S5 r1 r2 rng k) as H1.
    unfold loops_or in H1.
    destruct (bench_tipa gc1 gc2 _ _ _ _ _ _ _ _) as [[b1 rng1]| | |]; cbn [times rbind Nat.add] in *.
    2-4: destruct H1 as [H1|(a & H1 & _)]; try discriminate H1. 2: right; left; split; [reflexivity|]; destruct (tipa_proved _ _ _ _ _ _ _ _ _ _ _); cbn; lia.
    pose proof (bench_tipa_run D fuel rand mid mid idout (phi_g1 P) smul psi_id smul
                gc1 sc1 ig (multiexp_ip (pG1 P)) HD (afgho_g1_law P E HE r2) (pedersen_law _ r1) (identity_law _) (multiexp_ip_law _) S4 r1 rand rng1 k) as H2.
    unfold loops_or in H2.
    destruct (bench_tipa gc1 sc1 _ _ _ _ _ _ _ _) as [[b2 rng2]| | |]; cbn [times rbind Nat.add] in *.
    2-4: destruct H2 as [H2|(a & H2 & _)]; try discriminate H2. 2: right; left; split; [reflexivity|]; destruct (tipa_proved _ _ _ _ _ _ _ _ _ _ _); cbn; lia.
    destruct (bench_shift_run D fuel rand mid mid idout (phi_g1 P) (pr_e P) psi_id (pr_e P)
                gc1 gc2 it (pairing_ip P E) HD (afgho_g1_law P E HE r2) (afgho_g2_law P E HE r1) (identity_law _) (pairing_ip_law P E HE) S5 r1 r2 rng2 k) as [H3 H0].
    pose proof (shift_zero rng2 k) as Hz.
    destruct (f_eq_dec K (shift_scalar rand it r1 r2 rng2 (2 ^ S k)) f0) as [Hx|Hx].
    - specialize (H0 Hx). specialize (Hz Hx). rewrite Hz. rewrite H0 in *. cbn [times rbind Nat.add] in *.
      right. right. split; [reflexivity|]. destruct H as [[H|(a & H & _)]|[_ H]]; [discriminate|discriminate|exact H].
    - clear H0 Hz. specialize (H3 Hx). unfold loops_or in H3.
      destruct (bench_tipa_srs_shift _ _ _ _ _ _ _ _ _ _) as [[b3 rng3]| | |]; cbn [times rbind Nat.add] in *.
      2-4: destruct H3 as [H3|(a & H3 & _)]; try discriminate H3. 2: right; left; split; [reflexivity|]; destruct (shift_proved _ _ _ _ _ _ _ _ _ _ _); cbn; lia.
      pose proof (bench_ssm_run E D fuel rand r1 r2 HE HD rng3 k) as H4. unfold loops_or in H4.
      destruct (bench_tipa_ssm _ _ _ _ _ _ _ _ _ _) as [[b4 rng4]| | |]; cbn [times rbind Nat.add] in *.
      2-4: destruct H4 as [H4|(a & H4 & _)]; try discriminate H4. 2: right; left; split; [reflexivity|]; destruct (ssm_proved _ _ _ _ _ _ _ _ _); cbn; lia.
      left. destruct H as [[H|(a & [= <-] & H)]|[H _]]; try discriminate. now rewrite H.
  Qed.

  (** ** The Groth16 example *)
  Variable TS : snark R P (test_circuit P).
  (** how far the example gets: no setup, no proofs, no aggregate, not accepted, accepted *)
  Definition example_count (m n : nat) (rng0 : R) : nat :=
    match (do (pk, rng) <- sn_setup TS (mk_test_circuit (repeat f0 m) f0 f0) rng0;
           do (srs, rng) <- g16_setup P rand rng n; Ok (pk, srs, rng)) with
    | Ok (pk, srs, rng) =>
      match example_proofs P rand TS pk m n rng with
      | Ok (proofs, _, _) =>
        match g16_aggregate P E D fuel r1 r2 srs proofs with
        | Ok _ => match g16_example_main P E D fuel rand r1 r2 TS m n rng0 with Ok _ => 6 | _ => 3 end
        | _ => 2
        end
      | _ => 1
      end
    | _ => 0
    end.
  Theorem C113_groth16_example m n rng : g16_example_print clock P E D fuel rand r1 r2 TS m n rng [] =
    (firstn (example_count m n rng) (example_text clock n), g16_example_main P E D fuel rand r1 r2 TS m n rng).
  Proof using.
    unfold g16_example_print, example_count, g16_example_main. unfold and_then, silent, println, println_ms.
    destruct (sn_setup _ _ _) as [[pk rng1]| | |]; cbn [ok_unwrap rbind]; try reflexivity.
    destruct (g16_setup _ _ _ _) as [[srs rng2]| | |]; cbn [ok_unwrap rbind]; try reflexivity.
    destruct (example_proofs _ _ _ _ _ _ _) as [[[proofs sts] rng3]| | |]; cbn [rbind]; try reflexivity.
    destruct (g16_aggregate _ _ _ _ _ _ _ _) as [agg| | |]; cbn [ok_unwrap rbind]; try reflexivity.
    destruct (get_verifier_key srs) as [v| | |]; cbn [rbind]; try reflexivity.
    destruct (g16_verify _ _ _ _ _ _ _ _ _ _) as [b| | |]; cbn [ok_unwrap rbind]; try reflexivity.
    destruct b; reflexivity.
  Qed.
End Programs.

(** ** The scaling example *)
(** what is printed for a row of the file *)
Definition report (threads : N) (row : list cell) : list (list cell) :=
  match row with
  | [Text m; Real direct; Real prover; Real verifier] =>
    [words ("=== Benchmarking SIPP over Bls12-377 with " ++ m ++ " input(s) and " ++ dec threads ++ " thread(s) ====");
     [Text "Direct time: "; Real direct; Text " seconds"];
     [Text "Prover time: "; Real prover; Text " seconds"];
     [Text "Verifier time: "; Real verifier; Text " seconds"]; []]
  | _ => []
  end.
Definition help_text : list (list cell) :=
  [[]; words "Help: Invoke this as <program> <log_min_num_inputs> <log_max_num_inputs> <path_to_output_dir>"; []].

Section ScalingOutput.
  Variable clock : nat -> N.
  Variable checks : bool.
  Context {P : pairing}.
  Variables (E : penv) (S : stream) (D : bytes -> bytes).
  Context {R : Type}.
  Variables (sh1 : list (pG1 P) -> R -> list (pG1 P) * R) (sh2 : list (pG2 P) -> R -> list (pG2 P) * R).
  Variables (rand : sampler R (pK P)) (r1 : sampler R (pG1 P)) (r2 : sampler R (pG2 P)).
  Notation program := (scaling_program clock checks P E S D sh1 sh2 rand r1 r2).
  Notation print := (scaling_print clock checks P E S D sh1 sh2 rand r1 r2).

  Lemma serialize_rows record rows : List.length record = 4 -> (rows = [] \/ hd [] rows = scaling_header) ->
    hd [] (serialize record rows) = scaling_header /\ tl (serialize record rows) = tl rows ++ [record].
  Proof. intros _ [->|H]; [now split|]. destruct rows as [|h rows]; [now split|]. cbn in *. now split. Qed.

  Lemma loop_print threads r sizes : forall k a b rng rows out,
    (rows = [] \/ hd [] rows = scaling_header) ->
    let '(rows', x) := ipp_loop_csv clock checks P E S D sh1 sh2 r sizes k a b rng rows in
    exists new, tl rows' = tl rows ++ new /\ (rows' = [] \/ hd [] rows' = scaling_header) /\
      ipp_loop_print clock checks P E S D sh1 sh2 threads r sizes k a b rng rows out = (out ++ flat_map (report threads) new, rows', x).
  Proof.
    induction sizes as [|i sizes IH]; intros k a b rng rows out Hr; cbn [ipp_loop_csv ipp_loop_print].
    - exists []. cbn [flat_map]. rewrite !app_nil_r. repeat split; auto.
    - destruct (rbind _ _) as [[m [[[d p] v] [[am bm] rng1]]]| | |].
      2-4: exists []; cbn [flat_map]; rewrite !app_nil_r; repeat split; auto.
      set (record := [Text _; Real _; Real _; Real _]).
      destruct (serialize_rows record rows eq_refl Hr) as [H1 H2].
      match goal with |- context [ipp_loop_print _ _ _ _ _ _ _ _ _ _ _ ?k ?a ?b ?g _ ?o] =>
        specialize (IH k a b g (serialize record rows) o (or_intror H1)) end.
      destruct (ipp_loop_csv _ _ _ _ _ _ _ _ _ _ _ _ _ _ _) as [rows' x]. destruct IH as (new & E1 & E2 & E3).
      exists (record :: new). rewrite E1, H2, <- app_assoc. split; [reflexivity|]. split; [exact E2|].
      rewrite E3, <- app_assoc. reflexivity.
  Qed.

  (** Whatever the arguments: the file and the end are as without the printing (C91), and there is a report for each row of the
      file, with its size and its three times. *)
  Theorem C113_scaling rng env pool args : exists out,
    print rng env pool args = (out, fst (program rng env pool args), snd (program rng env pool args)) /\
    let help := match wants_help args with Ok true => help_text | _ => [] end in
    match fst (program rng env pool args) with
    | None => out = help
    | Some (_, rows) => exists threads, named_threads env pool threads /\ out = help ++ flat_map (report threads) (tl rows)
    end.
  Proof.
    unfold scaling_print, scaling_program.
    destruct (scaling_args args) as [[[lo hi] dir]| | |]; cbn [rbind fst snd]; try (eexists; split; reflexivity).
    destruct (num_threads env pool) as [threads| | |] eqn:Et; cbn [rbind fst snd]; try (eexists; split; reflexivity).
    destruct (vec_len checks _) as [n| | |]; cbn [rbind fst snd]; try (eexists; split; reflexivity).
    destruct (r1 rng) as [g rng1]. destruct (r2 rng1) as [h rng2]. destruct (rand rng2) as [r rng3].
    set (help := match wants_help args with Ok true => help_lines | _ => [] end).
    pose proof (loop_print threads (repeat r n) (seq (N.to_nat lo) (N.to_nat hi + 1 - N.to_nat lo)) 0 (repeat (g +m g) n) (repeat (h +m h) n) rng3 [] help (or_introl eq_refl)) as H.
    destruct (ipp_loop_csv _ _ _ _ _ _ _ _ _ _ _ _ _ _ _) as [rows x]. destruct H as (new & E1 & _ & E3). rewrite E3. cbn [fst snd].
    eexists. split; [reflexivity|]. exists threads. split; [now apply num_threads_named|]. rewrite E1. reflexivity.
  Qed.

  (** Asked for help, the program prints the text and panics; no file. *)
  Theorem C113_scaling_help_refuted rng env pool prog rest :
    print rng env pool [prog] = (help_text, None, Panic) /\
    print rng env pool (prog :: "-h" :: rest) = (help_text, None, Panic) /\
    print rng env pool (prog :: "--help" :: rest) = (help_text, None, Panic).
  Proof. repeat split; reflexivity. Qed.

  (** With numbers as arguments: a report for each size that passes, in order. *)
  Theorem C113_scaling_reports rng prog (lo hi : nat) dir rest env pool threads : hi < 32 -> (N.of_nat lo < 2 ^ 64)%N -> named_threads env pool threads ->
    let args := prog :: dec (N.of_nat lo) :: dec (N.of_nat hi) :: dir :: rest in
    exists n, n <= hi + 1 - lo /\
      fst (fst (print rng env pool args)) = flat_map (fun i => report threads (scaling_row clock (before lo i) i)) (seq lo n) /\
      snd (print rng env pool args) = scaling_ipp checks P E S D sh1 sh2 rand r1 r2 rng lo hi /\
      (scaling_ipp checks P E S D sh1 sh2 rand r1 r2 rng lo hi = Ok tt <-> n = hi + 1 - lo).
  Proof.
    intros Hhi Hlo Ht args. destruct (C91_file clock checks E S D sh1 sh2 rand r1 r2 rng prog lo hi dir rest env pool) as [[Hn _]|(t & Ht' & Hend & Hno & Hf)]; [lia|exact Hlo| |].
    { exfalso. exact (Hn _ Ht). }
    fold args in Hend, Hno, Hf. destruct (C113_scaling rng env pool args) as (out & -> & H). cbn [fst snd].
    assert (Hw : wants_help args = Ok false) by apply wants_help_number. rewrite Hw in H. cbv zeta in H.
    destruct (fst (program rng env pool args)) as [[name rows]|] eqn:Ef.
    2: { destruct (proj1 Hno eq_refl) as [_ Hbig]. lia. }
    destruct (Hf name rows eq_refl) as (_ & n & Hn & Ht2 & Hok & _). exists n. split; [exact Hn|].
    split; [|split; [exact Hend|exact Hok]].
    destruct H as (t' & Hn' & ->). assert (t' = threads) as ->.
    { apply num_threads_named in Ht, Hn'. congruence. }
    rewrite Ht2. destruct n as [|n]; [reflexivity|]. cbn [scaling_table tl app].
    generalize (seq lo (Datatypes.S n)). intros l. induction l as [|i l IH]; [reflexivity|]. cbn [map flat_map]. now rewrite IH.
  Qed.
End ScalingOutput.
Print Assumptions C113_gipa.
Print Assumptions C113_tipa.
Print Assumptions C113_inner_products.
Print Assumptions C113_gipa_all.
Print Assumptions C113_tipa_all.
Print Assumptions C113_groth16_example.
Print Assumptions C113_scaling.
Print Assumptions C113_scaling_help_refuted.
Print Assumptions C113_scaling_reports.

(** Runs with the toy hash; line k takes 10 k milliseconds. *)
Definition ex_ms (k : nat) : N := N.of_nat (10 * k).
Definition shown {A} (x : list line * res A) : list string * res A :=
  (map (fun l => match l with [Text s] => s | _ => "" end) (fst x), snd x).
Example C113_example_gipa :
  shown (gipa_main_print ex_ms ZPair ex_env toy_digest 9 ex_scalars ex_scalars ex_scalars 2%Z 2 []) =
    (["Benchmarking GIPA with vector length: 2"; "1) Pairing inner product..."; "	 proving time: 20 ms"; "	 verification time: 30 ms";
      "2) Multiexponentiation G1 inner product..."; "	 proving time: 50 ms"; "	 verification time: 60 ms"], Ok [true; true]) /\
  shown (gipa_main_print ex_ms ZPair ex_env toy_digest 9 ex_scalars ex_scalars ex_scalars 2%Z 3 []) =
    (["Benchmarking GIPA with vector length: 3"; "1) Pairing inner product..."], Panic).
Proof. vm_compute. split; reflexivity. Qed.
(** a scalar sampler that yields 0: the program stops after the title of the third run *)
Example C113_example_tipa :
  shown (tipa_main_print ex_ms ZPair ex_env toy_digest 9 (fun z => (zq 0, z)) ex_scalars ex_scalars 2%Z 2 []) =
    (["Benchmarking TIPA with vector length: 2"; "1) Pairing inner product..."; "	 proving time: 20 ms"; "	 verification time: 30 ms";
      "2) Multiexponentiation G1 inner product..."; "	 proving time: 50 ms"; "	 verification time: 60 ms";
      "3) Pairing inner product with SRS shift..."], Panic) /\
  tipa_main_print ex_ms ZPair ex_env toy_digest 9 ex_scalars ex_scalars ex_scalars 2%Z 2 [] = (tipa_text ex_ms 2, Ok [true; true; true; true]).
Proof. vm_compute. split; reflexivity. Qed.
(** two proofs, three proofs (no aggregate), a SNARK whose second proof fails *)
Definition ex_example_print TS n := shown (g16_example_print ex_ms ZPair ex_env toy_digest 9 ex_scalars ex_scalars ex_scalars TS 1 n 2%Z []).
Example C113_example_groth16 :
  ex_example_print (toy_snark (test_inputs (P := ZPair))) 2 =
    (["Generating 2 Groth16 proofs..."; "Aggregating 2 Groth16 proofs..."; "Verifying aggregated proof...";
      "Proof generation time: 30 ms"; "Proof aggregation time: 40 ms"; "Proof verification time: 50 ms"], Ok tt) /\
  ex_example_print (toy_snark (test_inputs (P := ZPair))) 3 = (["Generating 3 Groth16 proofs..."; "Aggregating 3 Groth16 proofs..."], Panic) /\
  ex_example_print ex68_snark 2 = (["Generating 2 Groth16 proofs..."], Panic).
Proof. vm_compute. repeat split; reflexivity. Qed.
(** size 64, a single repetition *)
Example C113_example_scaling : exists d p v,
  scaling_print (fun _ => 500%N) true ZPair ex_env toy_stream five_digest (fun l (z : Z) => (rev l, z)) (fun l z => (l, z))
    ex_scalars ex_scalars ex_scalars 2%Z (Some "3") 8%N ["scaling-ipp"; "6"; "6"; "out"] =
  ([[Text "=== Benchmarking SIPP over Bls12-377 with 64 input(s) and 3 thread(s) ===="];
    [Text "Direct time: "; Real d; Text " seconds"]; [Text "Prover time: "; Real p; Text " seconds"]; [Text "Verifier time: "; Real v; Text " seconds"]; []],
   Some ("out/ipp-3-threads.csv", [map Text ["size"; "direct"; "prover"; "verifier"]; [Text "64"; Real d; Real p; Real v]]), Ok tt) /\
  SFeqb d (SFdiv 53 1024 (f64_of_Z 1) (f64_of_Z 2)) = true.
Proof. do 3 eexists. split; [vm_compute; reflexivity|]. vm_compute. reflexivity. Qed.

(** Property C85: the CSV tables of the benchmark programs. *)
Require Import List Arith NArith ZArith Lia Bool String Ascii Decimal DecimalString.
Import ListNotations.
Require Import Verif.Outcome Verif.Algebra Verif.Zp Verif.Rust Verif.InnerProducts Verif.Commitments
  Verif.Poly Verif.Gipa Verif.Tipa Verif.Ssm Verif.Floats Verif.PolyCommit Verif.Transparent Verif.Groth16 Verif.Batch Verif.Bench Verif.GrothMain
  Verif.Cli Verif.Report Verif.Spec Verif.GipaFacts Verif.GipaComplete Verif.GipaTop Verif.SerFacts
  Verif.PropsBase Verif.PropsGipa Verif.PropsTipa Verif.PropsBatch Verif.PropsBench Verif.PropsGrothMain Verif.PropsCli.
Local Open Scope string_scope.
Local Open Scope list_scope.
Local Open Scope report_scope.

(** ** The tables, written down independently: cells and number of repetitions the time is divided by *)
Definition label : Type := list string * N.
Definition num (n : nat) : string := dec (N.of_nat n).
Definition stamped (clock : nat -> N) (k : nat) (l : label) : row := fst l ++ [dec (clock k / snd l)].
Fixpoint table (clock : nat -> N) (k : nat) (ls : list label) : list row :=
  match ls with [] => [] | l :: ls => stamped clock k l :: table clock (k + 1) ls end.

Definition pc_label (i : nat) (s f : string) (d : nat) (reps : N) : label := ([num i; s; f; num d], reps).
Definition pc_trial_labels s d i := [pc_label i s "commit" d 1; pc_label i s "open" d 1; pc_label i s "verify" d 50].
Definition pc_scheme_labels (trials d : nat) (s : string) : list label :=
  pc_label 1 s "setup" d 1 :: flat_map (pc_trial_labels s d) (seq 1 trials).
Definition pc_labels (trials : nat) (degrees : list nat) : list label :=
  flat_map (fun d => flat_map (pc_scheme_labels trials d) ["kzg"; "ipa"; "transparent_ipa"]) degrees.

Definition g16_label (n i : nat) (s f : string) : label := ([num i; num n; s; f], 1%N).
Definition g16_trial_labels n s i := [g16_label n i s "aggregate"; g16_label n i s "verify"].
Definition g16_labels (trials n : nat) (rec all mono : bool) : list label :=
  (if all then [g16_label n 1 "single_circuit" "setup"; g16_label n 1 "single_circuit" "prove"] else []) ++
  [g16_label n 1 "single_circuit" "verify"; g16_label n 1 "ipa" "setup"] ++ flat_map (g16_trial_labels n "ipa") (seq 1 trials) ++
  (if rec then g16_label n 1 "olr" "setup" :: flat_map (g16_trial_labels n "olr") (seq 1 trials) else []) ++
  (if mono then [g16_label n 1 "complete_circuit" "setup"; g16_label n 1 "complete_circuit" "prove"; g16_label n 1 "complete_circuit" "verify"] else []).

(** ** calculus *)
Section Calculus.
  Variable clock : nat -> N.
  (** whatever happens, the rows are a beginning of the table, and all of it if the program ends normally *)
  Definition prints {A} (e : report A) (ls : list label) : Prop := forall out, exists l1 l2,
    ls = l1 ++ l2 /\ fst (e out) = out ++ table clock (List.length out) l1 /\
    (forall a, snd (e out) = Ok a -> l2 = []).

  Lemma table_app k l1 l2 : table clock k (l1 ++ l2) = table clock k l1 ++ table clock (k + List.length l1) l2.
  Proof.
    revert k. induction l1 as [|l l1 IH]; intros k; cbn [table List.length]; [now rewrite Nat.add_0_r|].
    change ((l :: l1) ++ l2) with (l :: (l1 ++ l2)). cbn [table]. rewrite IH. replace (k + S (List.length l1)) with (k + 1 + List.length l1) by lia. reflexivity.
  Qed.
  Lemma table_length k ls : List.length (table clock k ls) = List.length ls.
  Proof. revert k. induction ls; intros k; cbn [table List.length]; auto. Qed.

  Lemma prints_quiet {A} (x : res A) : prints (quiet x) [].
  Proof. intros out. exists [], []. cbn. rewrite app_nil_r. auto. Qed.
  Lemma prints_row cells d : prints (record_time clock cells d) [(cells, d)].
  Proof. intros out. exists [(cells, d)], []. split; [reflexivity|]. split; [reflexivity|]. auto. Qed.
  Lemma prints_bind {A B} (e : report A) (f : A -> report B) l l' : prints e l -> (forall a, prints (f a) l') -> prints (pbind e f) (l ++ l').
  Proof.
    intros He Hf out. destruct (He out) as (l1 & l2 & -> & E1 & E2). unfold pbind. destruct (e out) as [out1 x]. cbn [fst snd] in E1, E2. subst out1.
    destruct x as [a| | |]; try (exists l1, (l2 ++ l'); split; [now rewrite app_assoc|]; split; [reflexivity|discriminate]).
    rewrite (E2 a eq_refl), app_nil_r. destruct (Hf a (out ++ table clock (List.length out) l1)) as (m1 & m2 & -> & F1 & F2).
    exists (l1 ++ m1), m2. split; [now rewrite app_assoc|]. split; [|exact F2].
    rewrite F1, table_app, app_length, table_length, app_assoc. reflexivity.
  Qed.
  Lemma prints_eq {A} (e : report A) l l' : prints e l -> l = l' -> prints e l'.
  Proof. now intros H <-. Qed.

  (** all rows the program adds satisfy [Q] *)
  Definition adds {A} (e : report A) (Q : row -> Prop) : Prop := forall out, exists l, fst (e out) = out ++ l /\ Forall Q l.
  Lemma adds_quiet {A} (x : res A) Q : adds (quiet x) Q.
  Proof. intros out. exists []. cbn. rewrite app_nil_r. auto. Qed.
  Lemma adds_row cells d (Q : row -> Prop) : (forall t, Q (cells ++ [t])) -> adds (record_time clock cells d) Q.
  Proof. intros H out. eexists [_]. split; [reflexivity|]. constructor; auto. Qed.
  Lemma adds_bind {A B} (e : report A) (f : A -> report B) (Q : row -> Prop) :
    adds e Q -> (forall a out, snd (e out) = Ok a -> adds (f a) Q) -> adds (pbind e f) Q.
  Proof.
    intros He Hf out. destruct (He out) as (l & E1 & HQ). pose proof (fun a => Hf a out) as Hf'. unfold pbind. destruct (e out) as [out1 x]. cbn [fst snd] in *. subst out1.
    destruct x as [a| | |]; try (exists l; now split).
    destruct (Hf' a eq_refl (out ++ l)) as (l' & E2 & HQ'). exists (l ++ l'). rewrite E2, app_assoc. split; [reflexivity|]. now apply Forall_app.
  Qed.
  Lemma adds_mono {A} (e : report A) (Q Q' : row -> Prop) : (forall r, Q r -> Q' r) -> adds e Q -> adds e Q'.
  Proof. intros H He out. destruct (He out) as (l & E & HQ). exists l. split; auto. eapply Forall_impl; eauto. Qed.

  Lemma erase_bind {A B} (e : report A) (f : A -> report B) out x g : snd (e out) = x -> (forall a out, snd (f a out) = g a) ->
    snd (pbind e f out) = rbind x g.
  Proof. intros H Hf. unfold pbind. destruct (e out) as [o y]. cbn [snd] in H. subst y. destruct x; cbn [rbind]; auto. Qed.
  Lemma erase_row {B} cells d (f : unit -> report B) out x : (forall out, snd (f tt out) = x) -> snd (pbind (record_time clock cells d) f out) = x.
  Proof. intros H. unfold pbind, record_time. apply H. Qed.
End Calculus.

Lemma ok_unwrap_bind {A B} (x : res A) (f : A -> res B) : ok_unwrap (rbind x f) = rbind (ok_unwrap x) (fun a => ok_unwrap (f a)).
Proof. now destruct x. Qed.
Lemma flat_map_cons {A B} (f : A -> list B) x l : flat_map f (x :: l) = f x ++ flat_map f l.
Proof. reflexivity. Qed.

(** ** benches/benches/poly_commit.rs *)
Section PolyCommitTable.
  Context {R : Type} {P : pairing}.
  Notation K := (pK P).
  Variable clock : nat -> N.
  Variables (E : penv) (D : bytes -> bytes) (fuel : nat).
  Variables (rand : sampler R K) (r1 : sampler R (pG1 P)) (r2 : sampler R (pG2 P)).

  Definition conf_main (rng0 : R) (c : option (N * N)) : res unit :=
    match c with
    | None => Ok tt
    | Some (t, d) => poly_commit_main P E D fuel rand r1 r2 rng0 (N.to_nat t) (N.to_nat d)
    end.

  Lemma trials_same {A B} s (commit : list K -> res A) (open : list K -> A -> K -> res B) verify d n : forall i rng out,
    snd (pc_trials_csv clock P rand s commit open verify d i n rng out) =
    pc_trials P rand (fun p z y => rbind (commit p) (fun com => rbind (open p com z) (fun pf => verify com z y pf))) d n rng.
  Proof.
    induction n as [|n IH]; intros i rng out; [reflexivity|]. cbn [pc_trials_csv pc_trials].
    destruct (poly_rand P rand d rng) as [p rng1]. destruct (rand rng1) as [z rng2]. rewrite ok_unwrap_bind.
    assert (Hassoc : forall X Y Z (x : res X) (f : X -> res Y) (g : Y -> res Z), rbind (rbind x f) g = rbind x (fun a => rbind (f a) g)) by (intros; now destruct x).
    rewrite Hassoc. apply erase_bind; [reflexivity|]. intros com out1. apply erase_row. intros out2. rewrite ok_unwrap_bind, Hassoc.
    apply erase_bind; [reflexivity|]. intros pf out3. apply erase_row. intros out4. apply erase_bind; [reflexivity|]. intros b out5.
    apply erase_bind; [reflexivity|]. intros [] out6. apply erase_row. intros out7. apply IH.
  Qed.

  Lemma loop_same degs rng0 n : forall out,
    snd (poly_commit_csv_loop clock P E D fuel rand r1 r2 degs rng0 n out) = poly_commit_loop P E D fuel rand r1 r2 degs rng0 n.
  Proof.
    induction degs as [|d degs IH]; intros out; [reflexivity|]. cbn [poly_commit_csv_loop poly_commit_loop].
    apply erase_bind.
    { unfold bench_kzg_csv, bench_kzg. apply erase_bind; [reflexivity|]. intros [[pw v] g] o. apply erase_row. intros o'. apply trials_same. }
    intros _ o1. apply erase_bind.
    { unfold bench_ipa_csv, bench_ipa. apply erase_bind; [reflexivity|]. intros [s g] o. apply erase_bind; [reflexivity|]. intros v o'. apply erase_row. intros o''.
      rewrite trials_same. clear. revert g. induction n as [|n IH]; intros g; [reflexivity|]. cbn [pc_trials].
      destruct (poly_rand P rand d g) as [p g1]. destruct (rand g1) as [z g2].
      assert (Hx : forall (x : res (pGT P * list (pG1 P))) (f : pGT P * list (pG1 P) -> res bool),
        rbind x f = rbind x (fun '(a, b) => f (a, b))) by (intros [[]| | |] f; reflexivity). 
      rewrite (Hx (upc_commit P E r2 s p)). cbn [fst snd]. destruct (ok_unwrap _); cbn [rbind]; auto. destruct (rassert _); cbn [rbind]; auto. }
    intros _ o2. apply erase_bind.
    { unfold bench_transparent_csv, bench_transparent_ipa. apply erase_bind; [reflexivity|]. intros [ck g] o. apply erase_row. intros o'.
      rewrite trials_same. clear. revert g. induction n as [|n IH]; intros g; [reflexivity|]. cbn [pc_trials].
      destruct (poly_rand P rand d g) as [p g1]. destruct (rand g1) as [z g2].
      destruct (tupc_commit P E r1 r2 ck p) as [[a b]| | |]; cbn [rbind fst snd ok_unwrap]; auto.
      destruct (ok_unwrap _); cbn [rbind]; auto. destruct (rassert _); cbn [rbind]; auto. }
    intros _ o3. apply IH.
  Qed.

  (** writing the table changes nothing: the outcome is that of the program of C64 and C82 *)
  Theorem C85_poly_commit_outcome rng0 args out :
    snd (poly_commit_program clock P E D fuel rand r1 r2 rng0 args out) = rbind (pc_bench_args args) (conf_main rng0).
  Proof.
    unfold poly_commit_program. apply erase_bind; [reflexivity|]. intros [[t d]|] o; [|reflexivity].
    unfold pbind, record. cbn [conf_main]. unfold poly_commit_main. apply loop_same.
  Qed.

  Lemma prints_trials {A B} s (commit : list K -> res A) (open : list K -> A -> K -> res B) verify d n : forall i rng,
    prints clock (pc_trials_csv clock P rand s commit open verify d i n rng) (flat_map (pc_trial_labels s d) (seq i n)).
  Proof.
    induction n as [|n IH]; intros i rng; [apply prints_quiet|]. cbn [pc_trials_csv seq]. rewrite flat_map_cons.
    destruct (poly_rand P rand d rng) as [p g1]. destruct (rand g1) as [z g2].
    apply (prints_bind clock _ _ []); [apply prints_quiet|]. intros com.
    apply (prints_bind clock _ _ [pc_label i s "commit" d 1]); [apply prints_row|]. intros _.
    apply (prints_bind clock _ _ []); [apply prints_quiet|]. intros pf.
    apply (prints_bind clock _ _ [pc_label i s "open" d 1]); [apply prints_row|]. intros _.
    apply (prints_bind clock _ _ []); [apply prints_quiet|]. intros b.
    apply (prints_bind clock _ _ []); [apply prints_quiet|]. intros _.
    apply (prints_bind clock _ _ [pc_label i s "verify" d 50]); [apply prints_row|]. intros _.
    rewrite Nat.add_1_r. apply IH.
  Qed.

  Lemma prints_loop degs rng0 n : prints clock (poly_commit_csv_loop clock P E D fuel rand r1 r2 degs rng0 n) (pc_labels n degs).
  Proof.
    induction degs as [|d degs IH]; [apply prints_quiet|]. cbn [poly_commit_csv_loop]. unfold pc_labels. rewrite flat_map_cons.
    cbn [flat_map]. rewrite app_nil_r, <- !app_assoc.
    apply prints_bind.
    { unfold bench_kzg_csv. apply (prints_bind clock _ _ []); [apply prints_quiet|]. intros [[pw v] g].
      apply (prints_bind clock _ _ [pc_label 1 "kzg" "setup" d 1]); [apply prints_row|]. intros _. apply prints_trials. }
    intros _. apply prints_bind.
    { unfold bench_ipa_csv. apply (prints_bind clock _ _ []); [apply prints_quiet|]. intros [s g]. apply (prints_bind clock _ _ []); [apply prints_quiet|]. intros v.
      apply (prints_bind clock _ _ [pc_label 1 "ipa" "setup" d 1]); [apply prints_row|]. intros _. apply prints_trials. }
    intros _. apply prints_bind.
    { unfold bench_transparent_csv. apply (prints_bind clock _ _ []); [apply prints_quiet|]. intros [ck g].
      apply (prints_bind clock _ _ [pc_label 1 "transparent_ipa" "setup" d 1]); [apply prints_row|]. intros _. apply prints_trials. }
    intros _. apply IH.
  Qed.

  Definition pc_header : row := ["trial"; "scheme"; "function"; "degree"; "time"].
  Definition pc_degrees (points : nat) : list nat := map (fun i => 4 ^ (i + 1) - 1) (seq 0 points).

  (** the rows printed: the header and a beginning of the table, all of it if the program does not panic *)
  Theorem C85_poly_commit_table rng0 args t d : pc_bench_args args = Ok (Some (t, d)) ->
    exists m, fst (poly_commit_program clock P E D fuel rand r1 r2 rng0 args []) =
        pc_header :: table clock 1 (firstn m (pc_labels (N.to_nat t) (pc_degrees (N.to_nat d)))) /\
      (snd (poly_commit_program clock P E D fuel rand r1 r2 rng0 args []) = Ok tt ->
       m = List.length (pc_labels (N.to_nat t) (pc_degrees (N.to_nat d)))).
  Proof.
    intros Ha. unfold poly_commit_program, pbind, quiet, record. rewrite Ha. cbn [Datatypes.app].
    destruct (prints_loop (pc_degrees (N.to_nat d)) rng0 (N.to_nat t) [pc_header]) as (l1 & l2 & E1 & E2 & E3).
    exists (List.length l1). unfold pc_header, pc_degrees, row in *. rewrite E2, E1, firstn_app, Nat.sub_diag, firstn_all, firstn_O, app_nil_r.
    split; [reflexivity|]. intros Hok. rewrite (E3 tt Hok), app_nil_r. reflexivity.
  Qed.

  (** without numbers nothing is written *)
  Theorem C85_poly_commit_no_table rng0 args : (forall t d, pc_bench_args args <> Ok (Some (t, d))) ->
    fst (poly_commit_program clock P E D fuel rand r1 r2 rng0 args []) = [].
  Proof.
    intros H. unfold poly_commit_program, pbind, quiet. destruct (pc_bench_args args) as [[[t d]|]| | |]; try reflexivity.
    now destruct (H t d).
  Qed.

  (** ** a row "verify" is the row of a trial that was accepted, like all trials before it *)
  Definition scheme_ok (rng0 : R) (s : string) (d i : nat) : Prop :=
    (s = "kzg" /\ exists g, bench_kzg P rand rng0 d i = Ok g) \/
    (s = "ipa" /\ exists g, bench_ipa P E D fuel rand r2 rng0 d i = Ok g) \/
    (s = "transparent_ipa" /\ exists g, bench_transparent_ipa P E D fuel rand r1 r2 rng0 d i = Ok g).
  Definition honest_row (rng0 : R) (r : row) : Prop :=
    nth 2 r "" <> "verify" \/ exists i s d t, r = [num i; s; "verify"; num d; t] /\ scheme_ok rng0 s d i.

  Lemma pc_trials_add trial d n m : forall g, pc_trials P rand trial d (n + m) g = rbind (pc_trials P rand trial d n g) (pc_trials P rand trial d m).
  Proof.
    induction n as [|n IH]; intros g; [reflexivity|]. cbn [Nat.add pc_trials]. destruct (poly_rand P rand d g) as [p g1]. destruct (rand g1) as [z g2].
    destruct (ok_unwrap _); cbn [rbind]; auto. destruct (rassert _); cbn [rbind]; auto.
  Qed.

  Lemma adds_trials {A B} s (commit : list K -> res A) (open : list K -> A -> K -> res B) verify d (Q : row -> Prop) n : forall g0 i g,
    (forall r, nth 2 r "" <> "verify" -> Q r) ->
    (forall j g t, pc_trials P rand (fun p z y => rbind (commit p) (fun com => rbind (open p com z) (fun pf => verify com z y pf))) d j g0 = Ok g ->
      Q [num j; s; "verify"; num d; t]) ->
    pc_trials P rand (fun p z y => rbind (commit p) (fun com => rbind (open p com z) (fun pf => verify com z y pf))) d i g0 = Ok g ->
    adds (pc_trials_csv clock P rand s commit open verify d (i + 1) n g) Q.
  Proof.
    induction n as [|n IH]; intros g0 i g HQ HV Hi; [apply adds_quiet|]. cbn [pc_trials_csv].
    destruct (poly_rand P rand d g) as [p g1] eqn:Ep. destruct (rand g1) as [z g2] eqn:Ez.
    apply adds_bind; [apply adds_quiet|]. intros com o1 H1. cbn [quiet snd] in H1.
    apply adds_bind; [apply adds_row; intros; now apply HQ|]. intros u o2 H2.
    apply adds_bind; [apply adds_quiet|]. intros pf o3 H3. cbn [quiet snd] in H3.
    apply adds_bind; [apply adds_row; intros; now apply HQ|]. intros u' o4 H4.
    apply adds_bind; [apply adds_quiet|]. intros b o5 H5. cbn [quiet snd] in H5.
    apply adds_bind; [apply adds_quiet|]. intros u'' o6 H6. cbn [quiet snd] in H6.
    assert (Hn : pc_trials P rand (fun p z y => rbind (commit p) (fun com => rbind (open p com z) (fun pf => verify com z y pf))) d (i + 1) g0 = Ok g2).
    { rewrite pc_trials_add, Hi. cbn [rbind pc_trials]. rewrite Ep, Ez, !ok_unwrap_bind, H1. cbn [rbind]. rewrite ok_unwrap_bind, H3. cbn [rbind]. rewrite H5. cbn [rbind].
      rewrite H6. reflexivity. }
    apply adds_bind; [apply adds_row; intros t; exact (HV _ _ _ Hn)|]. intros u3 o7 H7. now apply (IH g0).
  Qed.

  Lemma honest_trials_ext (t1 t2 : list K -> K -> K -> res bool) d n : (forall p z y, t1 p z y = t2 p z y) ->
    forall g, pc_trials P rand t1 d n g = pc_trials P rand t2 d n g.
  Proof.
    intros H. induction n as [|n IH]; intros g; [reflexivity|]. cbn [pc_trials]. destruct (poly_rand P rand d g). destruct (rand _). rewrite H.
    destruct (ok_unwrap _); cbn [rbind]; auto. destruct (rassert _); cbn [rbind]; auto.
  Qed.

  Lemma adds_loop degs rng0 n : adds (poly_commit_csv_loop clock P E D fuel rand r1 r2 degs rng0 n) (honest_row rng0).
  Proof.
    induction degs as [|d degs IH]; [apply adds_quiet|]. cbn [poly_commit_csv_loop].
    assert (Hnv : forall r, nth 2 r "" <> "verify" -> honest_row rng0 r) by (intros r Hr; now left).
    apply adds_bind.
    { unfold bench_kzg_csv. apply adds_bind; [apply adds_quiet|]. intros [[pw v] g] o1 H1. cbn [quiet snd] in H1.
      apply adds_bind; [apply adds_row; intros; apply Hnv; discriminate|]. intros _ _ _. apply (adds_trials _ _ _ _ _ _ n g 0 g); [exact Hnv| |reflexivity].
      intros j g' t Hj. right. exists j, "kzg", d, t. split; [reflexivity|]. left. split; [reflexivity|]. exists g'.
      unfold bench_kzg. rewrite H1. cbn [rbind]. exact Hj. }
    intros _ _ _. apply adds_bind.
    { unfold bench_ipa_csv. apply adds_bind; [apply adds_quiet|]. intros [s g] o1 H1. cbn [quiet snd] in H1.
      apply adds_bind; [apply adds_quiet|]. intros v o2 H2. cbn [quiet snd] in H2.
      apply adds_bind; [apply adds_row; intros; apply Hnv; discriminate|]. intros _ _ _. apply (adds_trials _ _ _ _ _ _ n g 0 g); [exact Hnv| |reflexivity].
      intros j g' t Hj. right. exists j, "ipa", d, t. split; [reflexivity|]. right. left. split; [reflexivity|]. exists g'.
      unfold bench_ipa. rewrite H1. cbn [rbind]. rewrite H2. cbn [rbind]. rewrite <- Hj. apply honest_trials_ext. intros p z y.
      destruct (upc_commit P E r2 s p) as [[a b]| | |]; reflexivity. }
    intros _ _ _. apply adds_bind.
    { unfold bench_transparent_csv. apply adds_bind; [apply adds_quiet|]. intros [ck g] o1 H1. cbn [quiet snd] in H1.
      apply adds_bind; [apply adds_row; intros; apply Hnv; discriminate|]. intros _ _ _. apply (adds_trials _ _ _ _ _ _ n g 0 g); [exact Hnv| |reflexivity].
      intros j g' t Hj. right. exists j, "transparent_ipa", d, t. split; [reflexivity|]. right. right. split; [reflexivity|]. exists g'.
      unfold bench_transparent_ipa. rewrite H1. cbn [rbind]. rewrite <- Hj. apply honest_trials_ext. intros p z y.
      destruct (tupc_commit P E r1 r2 ck p) as [[a b]| | |]; reflexivity. }
    intros _ _ _. exact IH.
  Qed.

  Theorem C85_poly_commit_verify_rows rng0 args : Forall (honest_row rng0) (fst (poly_commit_program clock P E D fuel rand r1 r2 rng0 args [])).
  Proof.
    unfold poly_commit_program, pbind, quiet, record. destruct (pc_bench_args args) as [[[t d]|]| | |]; try constructor. cbn [Datatypes.app].
    destruct (adds_loop (map (fun i => 4 ^ (i + 1) - 1) (seq 0 (N.to_nat d))) rng0 (N.to_nat t) [["trial"; "scheme"; "function"; "degree"; "time"]]) as (l & -> & HF).
    constructor; [left; discriminate|exact HF].
  Qed.
End PolyCommitTable.
Print Assumptions C85_poly_commit_outcome.
Print Assumptions C85_poly_commit_table.
Print Assumptions C85_poly_commit_no_table.
Print Assumptions C85_poly_commit_verify_rows.

  Lemma flat_map_const {A B} (f : A -> list B) k l : (forall x, List.length (f x) = k) -> List.length (flat_map f l) = List.length l * k.
  Proof. intros H. induction l as [|x l IH]; [reflexivity|]. rewrite flat_map_cons, app_length, IH, H. reflexivity. Qed.
  Lemma pc_labels_length trials degs : List.length (pc_labels trials degs) = List.length degs * (3 * (1 + 3 * trials)).
  Proof.
    unfold pc_labels. rewrite (flat_map_const _ (3 * (1 + 3 * trials))); [reflexivity|]. intros d.
    rewrite (flat_map_const _ (1 + 3 * trials)); [reflexivity|]. intros s. unfold pc_scheme_labels. cbn [List.length].
    rewrite (flat_map_const _ 3), seq_length by reflexivity. lia.
  Qed.

(** the whole program, from the command line to the table *)
Section PolyCommitRun.
  Context {R : Type} {P : pairing}.
  Notation K := (pK P).
  Variable clock : nat -> N.
  Variables (E : penv) (D : bytes -> bytes) (fuel : nat).
  Variables (rand : sampler R K) (r1 : sampler R (pG1 P)) (r2 : sampler R (pG2 P)).
  Hypothesis HE : 1 <= threads E.
  Hypothesis HD : digest16 D.

  Theorem C85_poly_commit_run rng0 prog (t d : N) : (t < 2 ^ 64)%N -> (d <= 26)%N ->
    draws_end K D fuel ->
    rounds_end (mod_carrier (pGT P)) (mod_carrier (fmod K)) (identity_output (pG1 P)) D fuel ->
    rounds_end (mod_carrier (pG1 P)) (mod_carrier (fmod K)) (identity_output (fmod K)) D fuel ->
    let run := poly_commit_program clock P E D fuel rand r1 r2 rng0 [prog; dec t; dec d] [] in
    snd run = Ok tt /\ fst run = pc_header :: table clock 1 (pc_labels (N.to_nat t) (pc_degrees (N.to_nat d))) /\
    List.length (fst run) = 1 + N.to_nat d * (3 * (1 + 3 * N.to_nat t)).
  Proof using HE HD.
    intros Ht Hd H1 H2 H3 run.
    assert (Ha : pc_bench_args [prog; dec t; dec d] = Ok (Some (t, d))) by (apply C66_poly_commit; lia).
    assert (Hok : snd run = Ok tt).
    { unfold run. rewrite C85_poly_commit_outcome, Ha. cbn [rbind conf_main]. apply C64_poly_commit; auto. lia. }
    split; [exact Hok|].
    destruct (C85_poly_commit_table clock E D fuel rand r1 r2 rng0 _ t d Ha) as (m & E1 & E2). specialize (E2 Hok). subst m.
    rewrite firstn_all in E1. fold run in E1. split; [exact E1|]. rewrite E1. cbn [List.length]. rewrite table_length, pc_labels_length.
    unfold pc_degrees. rewrite map_length, seq_length. reflexivity.
  Qed.
End PolyCommitRun.
Print Assumptions C85_poly_commit_run.

(** ** benches/benches/groth16_aggregation/bench.rs *)
Section GrothTable.
  Context {R : Type} {P : pairing}.
  Notation K := (pK P).
  Variable clock : nat -> N.
  Variables (E : penv) (D : bytes -> bytes) (fuel : nat).
  Variables (rand : sampler R K) (r1 : sampler R (pG1 P)) (r2 : sampler R (pG2 P)).
  Variables (HI HO : Type) (rand_hash_input : sampler R HI) (hash : HI -> HO).
  Variables (default_input : HI) (default_output : HO) (to_fe : HO -> list K).
  Context {R0 : Type}.
  Variables (seed_from_u64 : N -> R0) (rand_u128 : sampler R0 N).
  Variable Q : pairing.
  Variable SS : snark R P (HI * HO).
  Variable SM : snark R P (list HI * list HO).
  Variable SA : snark R Q (list HO * list (g16_proof P) * g16_vk P).
  Variable pack : list HO -> list (pK Q).

  Notation bench := (g16_bench_main P E D fuel rand r1 r2 HI HO rand_hash_input hash default_input default_output to_fe
    seed_from_u64 rand_u128 Q SS SM SA pack).
  Notation bench_csv := (g16_bench_csv clock P E D fuel rand r1 r2 HI HO rand_hash_input hash default_input default_output to_fe
    seed_from_u64 rand_u128 Q SS SM SA pack).
  Notation program := (g16_bench_program clock P E D fuel rand r1 r2 HI HO rand_hash_input hash default_input default_output to_fe
    seed_from_u64 rand_u128 Q SS SM SA pack).

  Lemma aggregate_same N n s v vk inputs pfs : forall i out,
    snd (bench_aggregate_csv clock P E D fuel r1 r2 N i n s v vk inputs pfs out) = bench_aggregate P E D fuel r1 r2 n s v vk inputs pfs.
  Proof.
    induction n as [|n IH]; intros i out; [reflexivity|]. cbn [bench_aggregate_csv bench_aggregate].
    apply erase_bind; [reflexivity|]. intros a o1. apply erase_row. intros o2. apply erase_bind; [reflexivity|]. intros b o3.
    apply erase_row. intros o4. apply erase_bind; [reflexivity|]. intros _ o5. apply IH.
  Qed.
  Lemma recursive_same N n pk c inputs : forall i rng out,
    snd (bench_recursive_csv clock P HO Q SA N i n pk c inputs rng out) = bench_recursive P HO Q SA n pk c inputs rng.
  Proof.
    induction n as [|n IH]; intros i rng out; [reflexivity|]. cbn [bench_recursive_csv bench_recursive].
    apply erase_bind; [reflexivity|]. intros [pf g] o1. apply erase_row. intros o2. apply erase_bind; [reflexivity|]. intros b o3.
    apply erase_row. intros o4. apply erase_bind; [reflexivity|]. intros _ o5. apply IH.
  Qed.

  Theorem C85_groth16_outcome rng args out :
    snd (program rng args out) = rbind (g16_bench_args args) (fun c =>
      match c with None => Ok tt | Some (t, n, rec, all, mono) => bench (N.to_nat t) (N.to_nat n) rec all mono rng end).
  Proof.
    unfold g16_bench_program. apply erase_bind; [reflexivity|]. intros [[[[[t n] rec] all] mono]|] o; [|reflexivity].
    unfold g16_bench_csv, g16_bench_main. unfold pbind at 1, record at 1.
    destruct (random_generators rand_hash_input rng (N.to_nat n)) as [ins g0].
    apply erase_bind; [reflexivity|]. intros [pk g1] o1.
    assert (Hif : forall A cells x (f : unit -> report A) o, (forall o, snd (f tt o) = x) ->
      snd (pbind (if all then record_time clock cells 1 else quiet (Ok tt)) f o) = x).
    { intros A cells x f o' H. destruct all; [now apply erase_row|]. apply H. }
    apply Hif. intros o2. apply erase_bind; [reflexivity|]. intros [pfs g2] o3. apply erase_bind; [reflexivity|]. intros [[pfs' ins'] outs'] o4.
    apply Hif. intros o5. apply erase_bind; [reflexivity|]. intros b o6. apply erase_bind; [reflexivity|]. intros b' o7. apply erase_row. intros o8.
    apply erase_bind; [reflexivity|]. intros _ o9. apply erase_bind; [reflexivity|]. intros [s g3] o10. apply erase_row. intros o11.
    apply erase_bind; [reflexivity|]. intros v o12. apply erase_bind; [apply aggregate_same|]. intros _ o13.
    apply erase_bind.
    { destruct rec; [|reflexivity]. apply erase_bind; [reflexivity|]. intros [pka g4] o14. apply erase_row. intros o15. apply recursive_same. }
    intros g5 o16. destruct mono; [|reflexivity]. apply erase_bind; [reflexivity|]. intros [pkm g6] o17. apply erase_row. intros o18.
    apply erase_bind; [reflexivity|]. intros [pf g7] o19. apply erase_row. intros o20. apply erase_bind; [reflexivity|]. intros b'' o21. apply erase_row. intros o22. reflexivity.
  Qed.

  Lemma prints_aggregate N n s v vk inputs pfs : forall i,
    prints clock (bench_aggregate_csv clock P E D fuel r1 r2 N i n s v vk inputs pfs) (flat_map (g16_trial_labels N "ipa") (seq i n)).
  Proof.
    induction n as [|n IH]; intros i; [apply prints_quiet|]. cbn [bench_aggregate_csv seq]. rewrite flat_map_cons.
    apply (prints_bind clock _ _ []); [apply prints_quiet|]. intros a.
    apply (prints_bind clock _ _ [g16_label N i "ipa" "aggregate"]); [apply prints_row|]. intros _.
    apply (prints_bind clock _ _ []); [apply prints_quiet|]. intros b.
    apply (prints_bind clock _ _ [g16_label N i "ipa" "verify"]); [apply prints_row|]. intros _.
    apply (prints_bind clock _ _ []); [apply prints_quiet|]. intros _. rewrite Nat.add_1_r. apply IH.
  Qed.
  Lemma prints_recursive N n pk c inputs : forall i rng,
    prints clock (bench_recursive_csv clock P HO Q SA N i n pk c inputs rng) (flat_map (g16_trial_labels N "olr") (seq i n)).
  Proof.
    induction n as [|n IH]; intros i rng; [apply prints_quiet|]. cbn [bench_recursive_csv seq]. rewrite flat_map_cons.
    apply (prints_bind clock _ _ []); [apply prints_quiet|]. intros [pf g].
    apply (prints_bind clock _ _ [g16_label N i "olr" "aggregate"]); [apply prints_row|]. intros _.
    apply (prints_bind clock _ _ []); [apply prints_quiet|]. intros b.
    apply (prints_bind clock _ _ [g16_label N i "olr" "verify"]); [apply prints_row|]. intros _.
    apply (prints_bind clock _ _ []); [apply prints_quiet|]. intros _. rewrite Nat.add_1_r. apply IH.
  Qed.

  Definition g16_header : row := ["trial"; "num_proofs"; "scheme"; "function"; "time"].

  Theorem C85_groth16_table rng args t n rec all mono : g16_bench_args args = Ok (Some (t, n, rec, all, mono)) ->
    exists m, fst (program rng args []) = g16_header :: table clock 1 (firstn m (g16_labels (N.to_nat t) (N.to_nat n) rec all mono)) /\
      (snd (program rng args []) = Ok tt -> m = List.length (g16_labels (N.to_nat t) (N.to_nat n) rec all mono)).
  Proof.
    intros Ha. assert (Hprog : program rng args [] = bench_csv (N.to_nat t) (N.to_nat n) rec all mono rng []).
    { unfold g16_bench_program. unfold pbind at 1, quiet at 1. rewrite Ha. reflexivity. }
    rewrite Hprog. clear Hprog.
    generalize (N.to_nat t) as T, (N.to_nat n) as N. intros T N.
    assert (Hp : exists tail, (forall out, bench_csv T N rec all mono rng out = tail (out ++ [g16_header])) /\ prints clock tail (g16_labels T N rec all mono)).
    { unfold g16_bench_csv, g16_labels. eexists. split; [intros out; unfold pbind at 1, record at 1; reflexivity|].
      destruct (random_generators rand_hash_input rng N) as [ins g0].
      apply (prints_bind clock _ _ []); [apply prints_quiet|]. intros [pk g1].
      apply (prints_eq clock _ ((if all then [g16_label N 1 "single_circuit" "setup"] else []) ++ (if all then [g16_label N 1 "single_circuit" "prove"] else []) ++
        [g16_label N 1 "single_circuit" "verify"] ++ [g16_label N 1 "ipa" "setup"] ++ flat_map (g16_trial_labels N "ipa") (seq 1 T) ++
        (if rec then g16_label N 1 "olr" "setup" :: flat_map (g16_trial_labels N "olr") (seq 1 T) else []) ++
        (if mono then [g16_label N 1 "complete_circuit" "setup"; g16_label N 1 "complete_circuit" "prove"; g16_label N 1 "complete_circuit" "verify"] else [])));
        [|destruct all; reflexivity].
      apply prints_bind; [destruct all; [apply prints_row|apply prints_quiet]|]. intros _.
      apply (prints_bind clock _ _ []); [apply prints_quiet|]. intros [pfs g2].
      apply (prints_bind clock _ _ []); [apply prints_quiet|]. intros [[pfs' ins'] outs'].
      apply prints_bind; [destruct all; [apply prints_row|apply prints_quiet]|]. intros _.
      apply (prints_bind clock _ _ []); [apply prints_quiet|]. intros b.
      apply (prints_bind clock _ _ []); [apply prints_quiet|]. intros b'.
      apply (prints_bind clock _ _ [g16_label N 1 "single_circuit" "verify"]); [apply prints_row|]. intros _.
      apply (prints_bind clock _ _ []); [apply prints_quiet|]. intros _.
      apply (prints_bind clock _ _ []); [apply prints_quiet|]. intros [s g3].
      apply (prints_bind clock _ _ [g16_label N 1 "ipa" "setup"]); [apply prints_row|]. intros _.
      apply (prints_bind clock _ _ []); [apply prints_quiet|]. intros v.
      apply prints_bind; [apply prints_aggregate|]. intros _.
      apply prints_bind.
      { destruct rec; [|apply prints_quiet]. apply (prints_bind clock _ _ []); [apply prints_quiet|]. intros [pka g4].
        apply (prints_bind clock _ _ [g16_label N 1 "olr" "setup"]); [apply prints_row|]. intros _. apply prints_recursive. }
      intros g5. destruct mono; [|apply prints_quiet]. apply (prints_bind clock _ _ []); [apply prints_quiet|]. intros [pkm g6].
      apply (prints_bind clock _ _ [g16_label N 1 "complete_circuit" "setup"]); [apply prints_row|]. intros _.
      apply (prints_bind clock _ _ []); [apply prints_quiet|]. intros [pf g7].
      apply (prints_bind clock _ _ [g16_label N 1 "complete_circuit" "prove"]); [apply prints_row|]. intros _.
      apply (prints_bind clock _ _ []); [apply prints_quiet|]. intros b''.
      apply (prints_bind clock _ _ [g16_label N 1 "complete_circuit" "verify"]); [apply prints_row|]. intros _. apply prints_quiet. }
    destruct Hp as (tail & Ht & Hp). rewrite !Ht. cbn [Datatypes.app]. destruct (Hp [g16_header]) as (l1 & l2 & E1 & E2 & E3). exists (List.length l1).
    rewrite E2, E1, firstn_app, Nat.sub_diag, firstn_all, firstn_O, app_nil_r. split; [reflexivity|].
    intros Hok. rewrite (E3 tt Hok), app_nil_r. reflexivity.
  Qed.

  Theorem C85_groth16_no_table rng args : (forall c, g16_bench_args args <> Ok (Some c)) -> fst (program rng args []) = [].
  Proof.
    intros H. unfold g16_bench_program, pbind, quiet. destruct (g16_bench_args args) as [[c|]| | |]; try reflexivity. now destruct (H c).
  Qed.

  (** ** "verify" rows are written before the result is looked at *)
  Theorem C85_groth16_verify_row_refuted T n rec all mono rng ins g0 pk g1 pfs g2 pfs' ins' outs' :
    random_generators rand_hash_input rng n = (ins, g0) ->
    ok_unwrap (sn_setup SS (default_input, default_output) g0) = Ok (pk, g1) ->
    bench_proofs P HI HO SS pk all (combine ins (map hash ins)) g1 = Ok (pfs, g2) ->
    bench_copies P HI HO all n pfs ins (map hash ins) = Ok (pfs', ins', outs') ->
    batch_verify_proof P seed_from_u64 rand_u128 (prepare_verifying_key (sn_vk SS pk)) (map to_fe outs') pfs' = Ok (Some false) ->
    exists before time, bench_csv T n rec all mono rng [] = (before ++ [[num 1; num n; "single_circuit"; "verify"; time]], Panic).
  Proof.
    intros E0 E1 E2 E3 E4. unfold g16_bench_csv. unfold pbind at 1, record at 1. rewrite E0. unfold pbind at 1, quiet at 1. rewrite E1.
    assert (Hif : forall A cells (f : unit -> report A) (o : list row), exists o', pbind (if all then record_time clock cells 1 else quiet (Ok tt)) f o = f tt o').
    { intros A cells f o. destruct all; eexists; reflexivity. }
    match goal with |- context [pbind (if all then _ else _) ?f ?o] => destruct (Hif _ (g16_cells 1 n "single_circuit" "setup") f o) as [o1 ->] end.
    unfold pbind at 1, quiet at 1. rewrite E2. unfold pbind at 1, quiet at 1. rewrite E3.
    match goal with |- context [pbind (if all then _ else _) ?f ?o] => destruct (Hif _ (g16_cells 1 n "single_circuit" "prove") f o) as [o2 ->] end.
    cbv zeta. unfold pbind at 1, quiet at 1. rewrite E4. unfold pbind at 1, quiet at 1. cbn [runwrap]. unfold pbind at 1, record_time at 1.
    unfold pbind at 1, quiet at 1. cbn [rassert]. exists o2. eexists. reflexivity.
  Qed.

  (** what holds: once another row follows, the check was passed *)
  Definition beyond {A} (k : nat) (p : list row * res A) : Prop := k < List.length (fst p) \/ exists a, snd p = Ok a.
  Lemma beyond_quiet {A B} (x : res A) (f : A -> report B) out k : beyond k (pbind (quiet x) f out) -> List.length out <= k ->
    exists a, x = Ok a /\ beyond k (f a out).
  Proof.
    intros H Hk. unfold pbind, quiet in H. destruct x as [a|e| |]; [exists a; auto|..]; destruct H as [H|[b H]]; cbn [fst snd] in H; try discriminate; lia.
  Qed.
  Lemma beyond_row {B} cells d (f : unit -> report B) out k : beyond k (pbind (record_time clock cells d) f out) ->
    exists out', List.length out' = List.length out + 1 /\ beyond k (f tt out').
  Proof. intros H. unfold pbind, record_time in H. eexists. split; [|exact H]. now rewrite app_length. Qed.

  Lemma beyond_aggregate N T s v vk inputs pfs : forall i out j k, beyond k (bench_aggregate_csv clock P E D fuel r1 r2 N i T s v vk inputs pfs out) ->
    List.length out + 2 * j <= k -> j <= T -> bench_aggregate P E D fuel r1 r2 j s v vk inputs pfs = Ok tt.
  Proof.
    induction T as [|T IH]; intros i out j k H Hk Hj; [replace j with 0 by lia; reflexivity|]. destruct j as [|j]; [reflexivity|].
    cbn [bench_aggregate_csv] in H. cbn [bench_aggregate].
    apply beyond_quiet in H as (a & -> & H); [|lia]. apply beyond_row in H as (o1 & L1 & H). cbn [rbind].
    apply beyond_quiet in H as (b & -> & H); [|lia]. apply beyond_row in H as (o2 & L2 & H). cbn [rbind].
    apply beyond_quiet in H as ([] & -> & H); [|lia]. cbn [rbind]. eapply IH; [exact H|lia|lia].
  Qed.
  Lemma beyond_recursive N T pk c inputs : forall i rng out j k, beyond k (bench_recursive_csv clock P HO Q SA N i T pk c inputs rng out) ->
    List.length out + 2 * j <= k -> j <= T -> exists g, bench_recursive P HO Q SA j pk c inputs rng = Ok g.
  Proof.
    induction T as [|T IH]; intros i rng out j k H Hk Hj; [replace j with 0 by lia; eexists; reflexivity|]. destruct j as [|j]; [eexists; reflexivity|].
    cbn [bench_recursive_csv] in H. cbn [bench_recursive].
    apply beyond_quiet in H as ([a g] & -> & H); [|lia]. apply beyond_row in H as (o1 & L1 & H). cbn [rbind].
    apply beyond_quiet in H as (b & -> & H); [|lia]. apply beyond_row in H as (o2 & L2 & H). cbn [rbind].
    apply beyond_quiet in H as ([] & -> & H); [|lia]. cbn [rbind]. eapply IH; [exact H|lia|lia].
  Qed.

  (** a part that prints a known number of rows and then goes on *)
  Lemma beyond_part {A B} (e : report A) (f : A -> report B) ls out k : prints clock e ls -> beyond k (pbind e f out) -> List.length out + List.length ls <= k ->
    exists a out', snd (e out) = Ok a /\ List.length out' = List.length out + List.length ls /\ beyond k (f a out').
  Proof.
    intros He H Hk. destruct (He out) as (l1 & l2 & E1 & E2 & E3). unfold pbind in H. destruct (e out) as [o x]. cbn [fst snd] in *. subst o ls.
    rewrite app_length in *. destruct x as [a|e'| |].
    - exists a. eexists. split; [reflexivity|]. split; [|exact H]. rewrite (E3 a eq_refl), app_length, table_length. cbn [List.length]. lia.
    - exfalso. destruct H as [H|[b H]]; cbn [fst snd] in H; [|discriminate]. rewrite app_length, table_length in H. lia.
    - exfalso. destruct H as [H|[b H]]; cbn [fst snd] in H; [|discriminate]. rewrite app_length, table_length in H. lia.
    - exfalso. destruct H as [H|[b H]]; cbn [fst snd] in H; [|discriminate]. rewrite app_length, table_length in H. lia.
  Qed.

  Definition rows_before_trials (all : bool) : nat := if all then 5 else 3.
  (** trial [j] of the aggregation (0: the check of the single proofs) was accepted when a row after it is printed *)
  Theorem C85_groth16_verify_rows_partial T n rec all mono rng j : j <= T ->
    beyond (rows_before_trials all + 2 * j) (bench_csv T n rec all mono rng []) ->
    bench j n false all false rng = Ok tt.
  Proof.
    intros Hj H. unfold g16_bench_csv in H. unfold g16_bench_main. unfold pbind at 1, record at 1 in H. cbn [Datatypes.app] in H.
    destruct (random_generators rand_hash_input rng n) as [ins g0]. unfold rows_before_trials in H.
    apply beyond_quiet in H as ([pk g1] & -> & H); [|cbn [List.length]; destruct all; lia]. cbn [rbind].
    apply (beyond_part _ _ (if all then [g16_label n 1 "single_circuit" "setup"] else [])) in H as (u1 & o1 & _ & L1 & H);
      [|destruct all; [apply prints_row|apply prints_quiet]|destruct all; cbn [List.length]; lia].
    assert (L1' : List.length o1 = if all then 2 else 1) by (destruct all; exact L1). clear L1.
    apply beyond_quiet in H as ([pfs g2] & -> & H); [|destruct all; lia]. cbn [rbind].
    apply beyond_quiet in H as ([[pfs' ins'] outs'] & -> & H); [|destruct all; lia]. cbn [rbind].
    apply (beyond_part _ _ (if all then [g16_label n 1 "single_circuit" "prove"] else [])) in H as (u2 & o2 & _ & L2 & H);
      [|destruct all; [apply prints_row|apply prints_quiet]|destruct all; cbn [List.length]; lia].
    assert (L2' : List.length o2 = if all then 3 else 1) by (destruct all; cbn [List.length] in L2; lia). clear L2.
    apply beyond_quiet in H as (b & -> & H); [|destruct all; lia]. cbn [rbind].
    apply beyond_quiet in H as (b' & -> & H); [|destruct all; lia]. cbn [rbind].
    apply beyond_row in H as (o3 & L3 & H).
    apply beyond_quiet in H as ([] & -> & H); [|destruct all; lia]. cbn [rbind].
    apply beyond_quiet in H as ([s g3] & -> & H); [|destruct all; lia]. cbn [rbind].
    apply beyond_row in H as (o4 & L4 & H).
    apply beyond_quiet in H as (v & -> & H); [|destruct all; lia]. cbn [rbind].
    assert (Hb : beyond (List.length o4 + 2 * j) (bench_aggregate_csv clock P E D fuel r1 r2 n 1 T s v (sn_vk SS pk) (map to_fe outs') pfs' o4)).
    { pose proof (prints_aggregate n T s v (sn_vk SS pk) (map to_fe outs') pfs' 1 o4) as (l1 & l2 & El & E1 & E2).
      unfold pbind in H. destruct (bench_aggregate_csv clock P E D fuel r1 r2 n 1 T s v (sn_vk SS pk) (map to_fe outs') pfs' o4) as [o x]. cbn [fst snd] in *.
      destruct x as [[]|e| |]; [right; eexists; reflexivity|..]; left; (destruct H as [H|[? H]]; cbn [fst snd] in H |- *; [|discriminate]); destruct all; lia. }
    rewrite (beyond_aggregate _ _ _ _ _ _ _ _ _ j _ Hb) by lia. reflexivity.
  Qed.
  (** likewise the trials of the one-layer recursion *)
  Theorem C85_groth16_recursive_rows_partial T n all mono rng j : j <= T ->
    beyond (rows_before_trials all + 2 * T + 1 + 2 * j) (bench_csv T n true all mono rng []) ->
    bench j n true all false rng = Ok tt.
  Proof.
    intros Hj H. unfold g16_bench_csv in H. unfold g16_bench_main. unfold pbind at 1, record at 1 in H. cbn [Datatypes.app] in H.
    destruct (random_generators rand_hash_input rng n) as [ins g0]. unfold rows_before_trials in H.
    apply beyond_quiet in H as ([pk g1] & -> & H); [|cbn [List.length]; destruct all; lia]. cbn [rbind].
    apply (beyond_part _ _ (if all then [g16_label n 1 "single_circuit" "setup"] else [])) in H as (u1 & o1 & _ & L1 & H);
      [|destruct all; [apply prints_row|apply prints_quiet]|destruct all; cbn [List.length]; lia].
    assert (L1' : List.length o1 = if all then 2 else 1) by (destruct all; exact L1). clear L1.
    apply beyond_quiet in H as ([pfs g2] & -> & H); [|destruct all; lia]. cbn [rbind].
    apply beyond_quiet in H as ([[pfs' ins'] outs'] & -> & H); [|destruct all; lia]. cbn [rbind].
    apply (beyond_part _ _ (if all then [g16_label n 1 "single_circuit" "prove"] else [])) in H as (u2 & o2 & _ & L2 & H);
      [|destruct all; [apply prints_row|apply prints_quiet]|destruct all; cbn [List.length]; lia].
    assert (L2' : List.length o2 = if all then 3 else 1) by (destruct all; cbn [List.length] in L2; lia). clear L2.
    apply beyond_quiet in H as (b & -> & H); [|destruct all; lia]. cbn [rbind].
    apply beyond_quiet in H as (b' & -> & H); [|destruct all; lia]. cbn [rbind].
    apply beyond_row in H as (o3 & L3 & H).
    apply beyond_quiet in H as ([] & -> & H); [|destruct all; lia]. cbn [rbind].
    apply beyond_quiet in H as ([s g3] & -> & H); [|destruct all; lia]. cbn [rbind].
    apply beyond_row in H as (o4 & L4 & H).
    apply beyond_quiet in H as (v & -> & H); [|destruct all; lia]. cbn [rbind].
    apply (beyond_part _ _ (flat_map (g16_trial_labels n "ipa") (seq 1 T))) in H as (u5 & o5 & Ha & L5 & H);
      [|apply prints_aggregate|rewrite (flat_map_const _ 2), seq_length by reflexivity; destruct all; lia].
    rewrite (flat_map_const _ 2), seq_length in L5 by reflexivity.
    rewrite (beyond_aggregate n T s v (sn_vk SS pk) (map to_fe outs') pfs' 1 o4 j (List.length o4 + 2 * j)); [|right; eexists; exact Ha|lia|lia]. cbn [rbind].
    set (e := pbind (quiet (ok_unwrap (sn_setup SA (outs', pfs', sn_vk SS pk) g3))) (fun '(pka, rng0) =>
      pbind (record_time clock (g16_cells 1 n "olr" "setup") 1) (fun _ => bench_recursive_csv clock P HO Q SA n 1 T pka (outs', pfs', sn_vk SS pk) (pack outs') rng0))) in H.
    assert (Hb : beyond (List.length o5 + 1 + 2 * j) (e o5)).
    { unfold pbind at 1 in H. destruct (e o5) as [o x]. destruct x as [g|er| |]; [right; eexists; reflexivity|..];
        left; (destruct H as [H|[? H]]; cbn [fst snd] in H |- *; [|discriminate]); destruct all; lia. }
    unfold e in Hb. apply beyond_quiet in Hb as ([pka g4] & -> & Hb); [|lia]. cbn [rbind]. apply beyond_row in Hb as (o6 & L6 & Hb).
    destruct (beyond_recursive _ _ _ _ _ _ _ _ j _ Hb) as [g ->]; [lia|lia|]. reflexivity.
  Qed.
End GrothTable.
Print Assumptions C85_groth16_outcome.
Print Assumptions C85_groth16_table.
Print Assumptions C85_groth16_no_table.
Print Assumptions C85_groth16_verify_row_refuted.
Print Assumptions C85_groth16_verify_rows_partial.
Print Assumptions C85_groth16_recursive_rows_partial.

(** ** Examples: the clock shows 100, 200, 300, ... milliseconds *)
Definition ex_clock (k : nat) : N := (100 * N.of_nat k)%N.
Definition ex_pc (args : list string) : list row * res unit :=
  poly_commit_program ex_clock ZPair ex_env toy_digest 9 ex_scalars ex_scalars ex_scalars 2%Z args [].
Example C85_example_poly_commit :
  ex_pc ["pc"; "1"; "1"; "--bench"] =
    ([["trial"; "scheme"; "function"; "degree"; "time"];
      ["1"; "kzg"; "setup"; "3"; "100"]; ["1"; "kzg"; "commit"; "3"; "200"]; ["1"; "kzg"; "open"; "3"; "300"]; ["1"; "kzg"; "verify"; "3"; "8"];
      ["1"; "ipa"; "setup"; "3"; "500"]; ["1"; "ipa"; "commit"; "3"; "600"]; ["1"; "ipa"; "open"; "3"; "700"]; ["1"; "ipa"; "verify"; "3"; "16"];
      ["1"; "transparent_ipa"; "setup"; "3"; "900"]; ["1"; "transparent_ipa"; "commit"; "3"; "1000"];
      ["1"; "transparent_ipa"; "open"; "3"; "1100"]; ["1"; "transparent_ipa"; "verify"; "3"; "24"]], Ok tt) /\
  ex_pc ["pc"; "-h"] = ([], Ok tt) /\ ex_pc ["pc"; "x"; "1"] = ([], Panic).
Proof. vm_compute. repeat split. Qed.

(** proofs of [SS] that are never valid *)
Definition bad_snark {C : Type} (inputs : C -> list zp) : snark Z ZPair C :=
  mk_snark (P := ZPair) (g16_vk ZPair) (fun vk => vk) (fun c z => Ok (toy_vk (List.length (inputs c)), z))
    (fun _ _ z => Ok (mk_g16_proof (P := ZPair) (zq 1) (zq 1) (zq 1), z)).
Definition ex_g16 (SS : snark Z ZPair (zp * list zp)) (args : list string) : list row * res unit :=
  g16_bench_program ex_clock ZPair ex_env toy_digest 9 ex_scalars ex_scalars ex_scalars zp (list zp) ex_scalars ex_hash (zq 0) [zq 0; zq 0] (fun o => o)
    ex_seed ex_u128 ZPair SS (toy_snark (fun c => flat_map (fun o => o) (snd c))) (toy_snark (fun c => List.concat (fst (fst c))))
    (@List.concat zp) 2%Z args [].
Example C85_example_groth16 :
  ex_g16 (toy_snark (fun c => snd c)) ["g"; "1"; "2"; "true"; "false"; "true"] =
    ([["trial"; "num_proofs"; "scheme"; "function"; "time"]; ["1"; "2"; "single_circuit"; "verify"; "100"];
      ["1"; "2"; "ipa"; "setup"; "200"]; ["1"; "2"; "ipa"; "aggregate"; "300"]; ["1"; "2"; "ipa"; "verify"; "400"];
      ["1"; "2"; "olr"; "setup"; "500"]; ["1"; "2"; "olr"; "aggregate"; "600"]; ["1"; "2"; "olr"; "verify"; "700"]], Ok tt) /\
  ex_g16 (toy_snark (fun c => snd c)) ["g"; "0"; "4"; "false"] =
    ([["trial"; "num_proofs"; "scheme"; "function"; "time"]; ["1"; "4"; "single_circuit"; "setup"; "100"]; ["1"; "4"; "single_circuit"; "prove"; "200"];
      ["1"; "4"; "single_circuit"; "verify"; "300"]; ["1"; "4"; "ipa"; "setup"; "400"]; ["1"; "4"; "complete_circuit"; "setup"; "500"];
      ["1"; "4"; "complete_circuit"; "prove"; "600"]; ["1"; "4"; "complete_circuit"; "verify"; "700"]], Ok tt).
Proof. vm_compute. repeat split. Qed.
Example C85_example_verify_row_refuted :
  ex_g16 (bad_snark (fun c => snd c)) ["g"; "1"; "2"] =
    ([["trial"; "num_proofs"; "scheme"; "function"; "time"]; ["1"; "2"; "single_circuit"; "setup"; "100"]; ["1"; "2"; "single_circuit"; "prove"; "200"];
      ["1"; "2"; "single_circuit"; "verify"; "300"]], Panic).
Proof. vm_compute. reflexivity. Qed.

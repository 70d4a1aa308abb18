(** Property C122: the text of the benchmarks with arguments. *)
Require Import List Arith NArith ZArith Lia Bool String Ascii Decimal DecimalString.
Import ListNotations.
Require Import Verif.Outcome Verif.Algebra Verif.Zp Verif.Rust Verif.InnerProducts Verif.Commitments Verif.Poly Verif.Gipa Verif.Tipa
  Verif.PolyCommit Verif.Transparent Verif.Groth16 Verif.Batch Verif.Bench Verif.GrothMain Verif.Cli Verif.Report Verif.Stdout
  Verif.Spec Verif.ListFacts Verif.RustFacts Verif.PropsBase Verif.PropsTipa Verif.PropsBatch Verif.PropsCli Verif.PropsGrothMain Verif.PropsReport.
Local Open Scope string_scope.
Local Open Scope list_scope.
Local Open Scope nat_scope.

(** ** Specification: reading CSV text (RFC 4180, records ended by a line feed, blank lines skipped)

    None: the text is not well-formed. *)
Inductive mode := Start | Plain | Quoted | Closed.
Definition blank (m : mode) (r : list (list ascii)) : bool := match m, r with Start, [] => true | _, _ => false end.
Fixpoint read (m : mode) (cell : list ascii) (r : list (list ascii)) (t : list ascii) : option (list (list (list ascii))) :=
  match t with
  | [] => if blank m r then Some [] else None
  | c :: t =>
    match m, c with
    | Quoted, """"%char => read Closed cell r t
    | Quoted, _ => read Quoted (cell ++ [c]) r t
    | _, ","%char => read Start [] (r ++ [cell]) t
    | _, "010"%char => if blank m r then read Start [] [] t else option_map (cons (r ++ [cell])) (read Start [] [] t)
    | _, "013"%char => None
    | Start, """"%char => read Quoted [] r t
    | Closed, """"%char => read Quoted (cell ++ [c]) r t
    | Plain, """"%char | Closed, _ => None
    | Start, _ | Plain, _ => read Plain (cell ++ [c]) r t
    end
  end.
Definition csv_read (t : list ascii) : option (list (list (list ascii))) := read Start [] [] t.

(** a line with commas between the cells *)
Fixpoint between (cells : list string) : string :=
  match cells with
  | [] => ""
  | [c] => c
  | c :: cells => (c ++ "," ++ between cells)%string
  end.
Definition plain_line (cells : list string) : list ascii := list_ascii_of_string (between cells) ++ ["010"%char].

(** ** The writer's text read back *)
Lemma special_cases c : is_special c = true <-> c = ","%char \/ c = """"%char \/ c = "010"%char \/ c = "013"%char.
Proof.
  unfold is_special. rewrite !orb_true_iff, !Ascii.eqb_eq. change comma with ","%char. change quotation_mark with """"%char.
  change line_feed with "010"%char. change carriage_return with "013"%char. tauto.
Qed.
Ltac each_char c := destruct c as [[] [] [] [] [] [] [] []].

Lemma read_quoted : forall s cell r t, read Quoted cell r (double_quotes s ++ """"%char :: t) = read Closed (cell ++ s) r t.
Proof.
  induction s as [|c s IH]; intros cell r t; cbn [double_quotes]; [now rewrite app_nil_r|].
  replace (cell ++ c :: s) with ((cell ++ [c]) ++ s) by (now rewrite <- app_assoc). rewrite <- IH.
  destruct (Ascii.eqb_spec c quotation_mark) as [->|Hc]; [reflexivity|].
  cbn [Datatypes.app]. each_char c; try reflexivity. now contradiction Hc.
Qed.
Lemma read_plain_char c cell r t : is_special c = false -> read Plain cell r (c :: t) = read Plain (cell ++ [c]) r t /\ read Start cell r (c :: t) = read Plain (cell ++ [c]) r t.
Proof. intros H. each_char c; try (split; reflexivity); discriminate. Qed.
Lemma read_plain : forall s cell r t, existsb is_special s = false -> read Plain cell r (s ++ t) = read Plain (cell ++ s) r t.
Proof.
  induction s as [|c s IH]; intros cell r t H; [now rewrite app_nil_r|]. cbn [existsb] in H. apply orb_false_iff in H as [Hc Hs].
  cbn [Datatypes.app]. rewrite (proj1 (read_plain_char c cell r _ Hc)), IH by exact Hs. now rewrite <- app_assoc.
Qed.

(** the mode in which a cell ends *)
Definition cell_end (s : list ascii) : mode := if existsb is_special s then Closed else match s with [] => Start | _ => Plain end.
Lemma read_cell s r t : read Start [] r (csv_cell s ++ t) = read (cell_end s) s r t.
Proof.
  unfold csv_cell, cell_end. destruct (existsb is_special s) eqn:Es.
  - cbn [Datatypes.app]. rewrite <- app_assoc. cbn [Datatypes.app]. exact (read_quoted s [] r t).
  - destruct s as [|c s]; [reflexivity|]. cbn [existsb] in Es. apply orb_false_iff in Es as [Hc Hs].
    cbn [Datatypes.app]. rewrite (proj2 (read_plain_char c [] r _ Hc)). now rewrite read_plain.
Qed.
Lemma cell_end_open s : cell_end s <> Quoted.
Proof. unfold cell_end. destruct (existsb is_special s); [discriminate|]. destruct s; discriminate. Qed.
Lemma cell_end_blank s r : blank (cell_end s) r = true -> csv_cell s = [] /\ r = [].
Proof.
  unfold cell_end, csv_cell. destruct (existsb is_special s); [discriminate|]. destruct s; [|discriminate]. destruct r; [auto|discriminate].
Qed.
Lemma read_comma m cell r t : m <> Quoted -> read m cell r (","%char :: t) = read Start [] (r ++ [cell]) t.
Proof. intros H. destruct m; try reflexivity. now contradiction H. Qed.
Lemma read_end m cell r t : m <> Quoted -> blank m r = false ->
  read m cell r ("010"%char :: t) = option_map (cons (r ++ [cell])) (read Start [] [] t).
Proof. intros H Hb. destruct m; cbn [read]; try rewrite Hb; try reflexivity. now contradiction H. Qed.

Lemma read_cells : forall cells r t, cells <> [] -> (r = [] -> csv_cells cells <> []) ->
  read Start [] r (csv_cells cells ++ "010"%char :: t) = option_map (cons (r ++ cells)) (read Start [] [] t).
Proof.
  induction cells as [|s cells IH]; intros r t Hne Hb; [contradiction|]. destruct cells as [|s' cells].
  - cbn [csv_cells] in *. rewrite read_cell. apply read_end; [apply cell_end_open|].
    destruct (blank (cell_end s) r) eqn:Eb; [|reflexivity]. apply cell_end_blank in Eb as [E1 E2]. now destruct (Hb E2).
  - change (csv_cells (s :: s' :: cells)) with (csv_cell s ++ comma :: csv_cells (s' :: cells)). rewrite <- app_assoc, read_cell.
    change ((comma :: csv_cells (s' :: cells)) ++ "010"%char :: t) with (","%char :: (csv_cells (s' :: cells) ++ "010"%char :: t)).
    rewrite read_comma by apply cell_end_open. rewrite IH; [|discriminate|].
    + now rewrite <- app_assoc.
    + intros H. now destruct r.
Qed.
Lemma csv_cells_blank cells : cells <> [] -> csv_cells cells = [] -> cells = [[]].
Proof.
  intros Hne H. destruct cells as [|s [|s' cells]]; [contradiction| |].
  - cbn [csv_cells] in H. unfold csv_cell in H. destruct (existsb is_special s); [discriminate|]. now subst s.
  - cbn [csv_cells] in H. now apply app_eq_nil in H as [_ H].
Qed.
Lemma read_record r t : r <> [] -> csv_read (csv_record r ++ t) = option_map (cons r) (csv_read t).
Proof.
  intros Hr. unfold csv_read, csv_record. destruct (csv_cells r) as [|c s] eqn:Ec.
  - rewrite (csv_cells_blank r Hr Ec). reflexivity.
  - rewrite <- Ec, <- app_assoc. apply (read_cells r [] t Hr). intros _. congruence.
Qed.

Lemma csv_write_equal n : forall rows, Forall (fun r => List.length r = n) rows ->
  csv_write (Some n) rows = (flat_map csv_record rows, true) /\ csv_write None rows = (flat_map csv_record rows, true).
Proof.
  assert (H : forall rows, Forall (fun r => List.length r = n) rows -> csv_write (Some n) rows = (flat_map csv_record rows, true)).
  { induction rows as [|r rows IH]; intros HF; [reflexivity|]. apply Forall_cons_iff in HF as [Hr HF]. cbn [csv_write flat_map].
    rewrite Hr, Nat.eqb_refl, IH by exact HF. reflexivity. }
  intros rows HF. split; [auto|]. destruct HF as [|r rows Hr HF]; [reflexivity|]. cbn [csv_write flat_map].
  rewrite Hr, Nat.eqb_refl, H by exact HF. reflexivity.
Qed.

Theorem C122_csv_round_trip n rows : 0 < n -> Forall (fun r => List.length r = n) rows ->
  exists t, csv_write None rows = (t, true) /\ csv_read t = Some rows.
Proof.
  intros Hn HF. exists (flat_map csv_record rows). split; [now apply (csv_write_equal n)|].
  induction HF as [|r rows Hr HF IH]; [reflexivity|]. cbn [flat_map]. rewrite read_record, IH; [reflexivity|]. intros ->. cbn in Hr. lia.
Qed.
Print Assumptions C122_csv_round_trip.

(** records of different lengths are refused, after the ones before them *)
Theorem C122_csv_lengths rows : snd (csv_write None rows) = true <-> exists n, Forall (fun r => List.length r = n) rows.
Proof.
  split; [|intros (n & HF); now rewrite (proj2 (csv_write_equal n rows HF))].
  assert (H : forall n rows, snd (csv_write (Some n) rows) = true -> Forall (fun r => List.length r = n) rows).
  { intros n. induction rows0 as [|r rows0 IH]; cbn [csv_write]; [constructor|]. destruct (Nat.eqb_spec (List.length r) n) as [Hr|]; [|discriminate].
    destruct (csv_write (Some n) rows0) as [s b]. intros Hb. constructor; auto. }
  destruct rows as [|r rows]; [exists 0; constructor|]. cbn [csv_write]. rewrite Nat.eqb_refl. specialize (H (List.length r) rows).
  destruct (csv_write (Some (List.length r)) rows) as [s b]. intros Hb. exists (List.length r). constructor; auto.
Qed.
Theorem C122_csv_refused n rows r more : Forall (fun r => List.length r = n) rows -> rows <> [] -> List.length r <> n ->
  csv_write None (rows ++ r :: more) = (fst (csv_write None rows), false).
Proof.
  intros HF Hne Hr.
  assert (H : forall rows, Forall (fun r => List.length r = n) rows -> csv_write (Some n) (rows ++ r :: more) = (fst (csv_write (Some n) rows), false)).
  { induction 1 as [|r' rows' Hr' HF' IH]; cbn [Datatypes.app csv_write].
    - apply Nat.eqb_neq in Hr. now rewrite Hr.
    - rewrite Hr', Nat.eqb_refl, IH. now destruct (csv_write (Some n) rows'). }
  destruct HF as [|r' rows' Hr' HF']; [contradiction|]. cbn [Datatypes.app csv_write]. rewrite Hr', Nat.eqb_refl, H by exact HF'.
  now destruct (csv_write (Some n) rows').
Qed.
Print Assumptions C122_csv_lengths.
Print Assumptions C122_csv_refused.

(** different tables, different texts *)
Theorem C122_csv_injective n n' rows rows' : 0 < n -> 0 < n' -> Forall (fun r => List.length r = n) rows -> Forall (fun r => List.length r = n') rows' ->
  csv_write None rows = csv_write None rows' -> rows = rows'.
Proof.
  intros Hn Hn' HF HF' H. destruct (C122_csv_round_trip n rows Hn HF) as (t & E1 & E2). destruct (C122_csv_round_trip n' rows' Hn' HF') as (t' & E1' & E2').
  congruence.
Qed.
Print Assumptions C122_csv_injective.

(** ** The tables: no cell needs quotation marks *)
Definition tame (s : string) : Prop := s <> "" /\ existsb is_special (list_ascii_of_string s) = false.
Definition tame_row (r : row) : Prop := List.length r = 5 /\ Forall tame r.

Lemma digits_tame u : existsb is_special (list_ascii_of_string (NilEmpty.string_of_uint u)) = false.
Proof. induction u; cbn [NilEmpty.string_of_uint list_ascii_of_string existsb]; auto. Qed.
Lemma dec_tame n : tame (dec n).
Proof.
  split; [|apply digits_tame]. destruct (dec_digit n) as (c & s & -> & _). discriminate.
Qed.
Lemma num_tame n : tame (num n).
Proof. apply dec_tame. Qed.

Definition tame_label (l : label) : Prop := List.length (fst l) = 4 /\ Forall tame (fst l).
Lemma table_tame clock : forall ls k, Forall tame_label ls -> Forall tame_row (table clock k ls).
Proof.
  induction ls as [|l ls IH]; intros k HF; constructor; apply Forall_cons_iff in HF as [[H1 H2] HF]; [|now apply IH].
  unfold stamped. split; [rewrite app_length, H1; reflexivity|]. apply Forall_app. split; [exact H2|]. constructor; [apply dec_tame|constructor].
Qed.
Ltac tame_label := split; [reflexivity|]; repeat (constructor; [first [apply num_tame|split; [discriminate|reflexivity]]|]); constructor.
Lemma Forall_flat_map_in {A B} (f : A -> list B) (Q : B -> Prop) l : (forall a, In a l -> Forall Q (f a)) -> Forall Q (flat_map f l).
Proof. intros H. apply Forall_forall. intros b Hb. apply in_flat_map in Hb as (a & Ha & Hb). specialize (H a Ha). rewrite Forall_forall in H. auto. Qed.
Lemma pc_labels_tame t ds : Forall tame_label (pc_labels t ds).
Proof.
  apply Forall_flat_map_in. intros d _. apply Forall_flat_map_in. intros s Hs. unfold pc_scheme_labels, pc_label.
  constructor; [destruct Hs as [<-|[<-|[<-|[]]]]; tame_label|]. apply Forall_flat_map_in. intros i _. unfold pc_trial_labels, pc_label.
  destruct Hs as [<-|[<-|[<-|[]]]]; repeat (constructor; [tame_label|]); constructor.
Qed.
Lemma g16_labels_tame t n rec all mono : Forall tame_label (g16_labels t n rec all mono).
Proof.
  unfold g16_labels. apply Forall_app. split; [destruct all; repeat (constructor; [tame_label|]); constructor|].
  apply Forall_app. split; [repeat (constructor; [tame_label|]); constructor|].
  apply Forall_app. split; [apply Forall_flat_map_in; intros i _; repeat (constructor; [tame_label|]); constructor|].
  apply Forall_app. split; [destruct rec; [constructor; [tame_label|]; apply Forall_flat_map_in; intros i _; repeat (constructor; [tame_label|]); constructor|constructor]|].
  destruct mono; repeat (constructor; [tame_label|]); constructor.
Qed.
Lemma firstn_Forall {A} (Q : A -> Prop) n : forall l, Forall Q l -> Forall Q (firstn n l).
Proof. induction n as [|n IH]; intros [|x l] H; cbn [firstn]; constructor; apply Forall_cons_iff in H as [H1 H2]; auto. Qed.

Lemma list_ascii_app s s' : list_ascii_of_string (s ++ s')%string = list_ascii_of_string s ++ list_ascii_of_string s'.
Proof. induction s as [|c s IH]; [reflexivity|]. cbn [list_ascii_of_string append Datatypes.app]. now rewrite IH. Qed.
Lemma cells_tame : forall r, Forall tame r -> csv_cells (map chars r) = list_ascii_of_string (between r).
Proof.
  induction r as [|s r IH]; intros HF; [reflexivity|]. apply Forall_cons_iff in HF as [[_ Hs] HF].
  assert (Hc : csv_cell (chars s) = chars s) by (unfold csv_cell, chars; now rewrite Hs). destruct r as [|s' r]; [exact Hc|].
  change (between (s :: s' :: r)) with (s ++ "," ++ between (s' :: r))%string. rewrite !list_ascii_app, <- IH by exact HF.
  change (csv_cells (map chars (s :: s' :: r))) with (csv_cell (chars s) ++ comma :: csv_cells (map chars (s' :: r))). now rewrite Hc.
Qed.
Lemma record_tame r : tame_row r -> csv_record (map chars r) = plain_line r.
Proof.
  intros [Hl HF]. unfold csv_record. rewrite cells_tame by exact HF. unfold plain_line. destruct r as [|s r]; [discriminate|].
  apply Forall_cons_iff in HF as [[Hs _] _]. destruct s as [|c s]; [now contradiction Hs|]. destruct r; reflexivity.
Qed.

(** the output [t] shows the rows *)
Definition shows (t : list ascii) (rows : list row) : Prop :=
  t = flat_map plain_line rows /\ csv_read t = Some (map (map list_ascii_of_string) rows) /\ Forall (fun r => List.length r = 5) rows /\
  ~ In """"%char t.

Lemma no_quotes : forall r, Forall tame r -> ~ In """"%char (list_ascii_of_string (between r)).
Proof.
  assert (Ht : forall s, tame s -> ~ In """"%char (list_ascii_of_string s)).
  { intros s [_ Hs] Hin. apply Bool.not_true_iff_false in Hs. apply Hs. apply existsb_exists. exists """"%char. split; [exact Hin|reflexivity]. }
  induction r as [|s r IH]; intros HF; [exact (fun H => H)|]. apply Forall_cons_iff in HF as [Hs HF]. destruct r as [|s' r]; [now apply Ht|].
  change (between (s :: s' :: r)) with (s ++ "," ++ between (s' :: r))%string. rewrite !list_ascii_app. intros Hin.
  apply in_app_iff in Hin as [Hin|Hin]; [now apply (Ht s Hs)|]. apply in_app_iff in Hin as [Hin|Hin]; [destruct Hin as [H|[]]; discriminate|]. now apply IH.
Qed.
Lemma program_shows (run : list row * res unit) : Forall tame_row (fst run) ->
  snd (csv_program run) = snd run /\ shows (fst (csv_program run)) (fst run).
Proof.
  intros HF. unfold csv_program.
  assert (H5 : Forall (fun r => List.length r = 5) (map (map chars) (fst run))).
  { apply Forall_map. eapply Forall_impl; [|exact HF]. intros r [H _]. now rewrite map_length. }
  destruct (C122_csv_round_trip 5 _ ltac:(lia) H5) as (t & E1 & E2). rewrite E1. cbn [fst snd]. split; [reflexivity|].
  assert (Et : t = flat_map plain_line (fst run)).
  { pose proof (proj2 (csv_write_equal 5 _ H5)) as E3. rewrite E1 in E3. injection E3 as ->. clear E1 E2 H5.
    induction HF as [|r rows Hr HF IH]; [reflexivity|]. cbn [map flat_map]. now rewrite record_tame, IH. }
  split; [exact Et|]. split; [exact E2|]. split; [eapply Forall_impl; [|exact HF]; intros r [H _]; exact H|].
  rewrite Et. intros Hin. apply in_flat_map in Hin as (r & Hr & Hin). rewrite Forall_forall in HF. destruct (HF r Hr) as [_ Hf].
  unfold plain_line in Hin. apply in_app_iff in Hin as [Hin|[Hin|[]]]; [now apply (no_quotes r)|discriminate].
Qed.

Definition usage_line (s : string) : list ascii := list_ascii_of_string s ++ ["010"%char].

Section PolyCommitText.
  Context {R : Type} {P : pairing}.
  Variable clock : nat -> N.
  Variables (E : penv) (D : bytes -> bytes) (fuel : nat).
  Variables (rand : sampler R (pK P)) (r1 : sampler R (pG1 P)) (r2 : sampler R (pG2 P)).
  Notation program := (poly_commit_program clock P E D fuel rand r1 r2).
  Notation stdout := (poly_commit_stdout clock P E D fuel rand r1 r2).

  Theorem C122_poly_commit rng0 args t d : pc_bench_args args = Ok (Some (t, d)) ->
    let rows := pc_labels (N.to_nat t) (pc_degrees (N.to_nat d)) in
    snd (stdout rng0 args) = snd (program rng0 args []) /\
    exists m, shows (fst (stdout rng0 args)) (pc_header :: table clock 1 (firstn m rows)) /\
      (snd (stdout rng0 args) = Ok tt -> m = List.length rows).
  Proof.
    intros Ha rows. unfold poly_commit_stdout. rewrite Ha. destruct (C85_poly_commit_table clock E D fuel rand r1 r2 rng0 args t d Ha) as (m & E1 & E2).
    destruct (program_shows (program rng0 args [])) as [H1 H2].
    { rewrite E1. constructor; [tame_label|]. apply table_tame, firstn_Forall, pc_labels_tame. }
    split; [exact H1|]. exists m. rewrite H1. rewrite E1 in H2. split; assumption.
  Qed.

  Theorem C122_poly_commit_help rng0 args : asks_help args ->
    stdout rng0 args = (usage_line "Usage: ``cargo bench --bench poly_commit -- <num_trials> <num_data_points>``", Ok tt).
  Proof. intros H. unfold poly_commit_stdout. now rewrite (proj2 (C66_help args H)). Qed.

  (** the three outputs are different: usage, nothing, a table *)
  Theorem C122_poly_commit_cases rng0 args :
    match pc_bench_args args with
    | Ok None => fst (stdout rng0 args) = usage_line pc_usage
    | Ok (Some _) => exists t, fst (stdout rng0 args) = "t"%char :: t
    | _ => stdout rng0 args = ([], Panic)
    end.
  Proof.
    destruct (pc_bench_args args) as [[[t d]|]|e| |] eqn:Ha.
    - destruct (C122_poly_commit rng0 args t d Ha) as (_ & m & (E1 & _) & _). rewrite E1. eexists. reflexivity.
    - unfold poly_commit_stdout. now rewrite Ha.
    - exfalso. revert Ha. unfold pc_bench_args, drop_bench, wants_help, int_arg, index, runwrap.
      destruct (last_opt args); cbn [rbind]; [|discriminate].
      repeat (match goal with |- context [match ?x with _ => _ end] => destruct x; cbn [rbind]; try discriminate end).
    - unfold poly_commit_stdout, poly_commit_program, pbind, quiet. now rewrite Ha.
    - exfalso. revert Ha. unfold pc_bench_args, drop_bench, wants_help, int_arg, index, runwrap.
      destruct (last_opt args); cbn [rbind]; [|discriminate].
      repeat (match goal with |- context [match ?x with _ => _ end] => destruct x; cbn [rbind]; try discriminate end).
  Qed.
End PolyCommitText.
Print Assumptions C122_poly_commit.
Print Assumptions C122_poly_commit_help.
Print Assumptions C122_poly_commit_cases.

Section GrothText.
  Context {R : Type} {P : pairing}.
  Variable clock : nat -> N.
  Variables (E : penv) (D : bytes -> bytes) (fuel : nat).
  Variables (rand : sampler R (pK P)) (r1 : sampler R (pG1 P)) (r2 : sampler R (pG2 P)).
  Variables (HI HO : Type) (rand_hash_input : sampler R HI) (hash : HI -> HO).
  Variables (default_input : HI) (default_output : HO) (to_fe : HO -> list (pK P)).
  Context {R0 : Type}.
  Variables (seed_from_u64 : N -> R0) (rand_u128 : sampler R0 N).
  Variable Q : pairing.
  Variable SS : snark R P (HI * HO).
  Variable SM : snark R P (list HI * list HO).
  Variable SA : snark R Q (list HO * list (g16_proof P) * g16_vk P).
  Variable pack : list HO -> list (pK Q).
  Notation program := (g16_bench_program clock P E D fuel rand r1 r2 HI HO rand_hash_input hash default_input default_output to_fe
    seed_from_u64 rand_u128 Q SS SM SA pack).
  Notation stdout := (g16_bench_stdout clock P E D fuel rand r1 r2 HI HO rand_hash_input hash default_input default_output to_fe
    seed_from_u64 rand_u128 Q SS SM SA pack).

  Theorem C122_groth16 rng args t n rec all mono : g16_bench_args args = Ok (Some (t, n, rec, all, mono)) ->
    let rows := g16_labels (N.to_nat t) (N.to_nat n) rec all mono in
    snd (stdout rng args) = snd (program rng args []) /\
    exists m, shows (fst (stdout rng args)) (g16_header :: table clock 1 (firstn m rows)) /\
      (snd (stdout rng args) = Ok tt -> m = List.length rows).
  Proof.
    intros Ha rows. unfold g16_bench_stdout. rewrite Ha.
    destruct (C85_groth16_table clock E D fuel rand r1 r2 HI HO rand_hash_input hash default_input default_output to_fe
      seed_from_u64 rand_u128 Q SS SM SA pack rng args t n rec all mono Ha) as (m & E1 & E2).
    destruct (program_shows (program rng args [])) as [H1 H2].
    { rewrite E1. constructor; [tame_label|]. apply table_tame, firstn_Forall, g16_labels_tame. }
    split; [exact H1|]. exists m. rewrite H1. rewrite E1 in H2. split; assumption.
  Qed.

  Theorem C122_groth16_help rng args : asks_help args -> stdout rng args =
    (usage_line "Usage: ``cargo bench --bench groth16_aggregation -- <num_trials> <num_proofs> <bench_rec=(true/false)> <generate_all_proofs=(true/false)> <monolithic_proof=(true/false)>``", Ok tt).
  Proof. intros H. unfold g16_bench_stdout. now rewrite (proj1 (C66_help args H)). Qed.

  Theorem C122_groth16_cases rng args :
    match g16_bench_args args with
    | Ok None => fst (stdout rng args) = usage_line g16_usage
    | Ok (Some _) => exists t, fst (stdout rng args) = "t"%char :: t
    | _ => stdout rng args = ([], Panic)
    end.
  Proof.
    destruct (g16_bench_args args) as [[[[[[t n] rec] all] mono]|]|e| |] eqn:Ha.
    - destruct (C122_groth16 rng args t n rec all mono Ha) as (_ & m & (E1 & _) & _). rewrite E1. eexists. reflexivity.
    - unfold g16_bench_stdout. now rewrite Ha.
    - exfalso. revert Ha. unfold g16_bench_args, drop_bench, wants_help, flag_arg, int_arg, index, runwrap.
      destruct (last_opt args); cbn [rbind]; [|discriminate].
      repeat (match goal with |- context [match ?x with _ => _ end] => destruct x; cbn [rbind]; try discriminate end).
    - unfold g16_bench_stdout, g16_bench_program, pbind, quiet. now rewrite Ha.
    - exfalso. revert Ha. unfold g16_bench_args, drop_bench, wants_help, flag_arg, int_arg, index, runwrap.
      destruct (last_opt args); cbn [rbind]; [|discriminate].
      repeat (match goal with |- context [match ?x with _ => _ end] => destruct x; cbn [rbind]; try discriminate end).
  Qed.
End GrothText.
Print Assumptions C122_groth16.
Print Assumptions C122_groth16_help.
Print Assumptions C122_groth16_cases.

(** ** Examples *)
Definition ex_text (l : list string) : list ascii := flat_map (fun s => list_ascii_of_string s ++ ["010"%char]) l.
(** cells with a comma, a quotation mark, a line feed, nothing *)
Example C122_example_csv :
  let rows := map (map list_ascii_of_string) [["a,b"; "c"]; ["say ""hi"""; String "010" ""]; [""; ""]] in
  csv_write None rows = (list_ascii_of_string ("""a,b"",c" ++ String "010" ("""say """"hi"""""",""" ++ String "010" """" ++ String "010" ("," ++ String "010" ""))), true) /\
  csv_read (fst (csv_write None rows)) = Some rows /\
  csv_write None [[[]]] = (list_ascii_of_string ("""""" ++ String "010" ""), true) /\ csv_read (fst (csv_write None [[[]]])) = Some [[[]]] /\
  csv_write None [[[]; []]; [[]]] = (ex_text [","], false) /\
  csv_read (list_ascii_of_string "a,b") = None /\ csv_read (ex_text ["a""b"]) = None.
Proof. vm_compute. repeat split. Qed.
Definition ex122_pc (args : list string) : list ascii * res unit :=
  poly_commit_stdout ex_clock ZPair ex_env toy_digest 9 ex_scalars ex_scalars ex_scalars 2%Z args.
Example C122_example_poly_commit :
  ex122_pc ["pc"; "1"; "1"; "--bench"] =
    (ex_text ["trial,scheme,function,degree,time"; "1,kzg,setup,3,100"; "1,kzg,commit,3,200"; "1,kzg,open,3,300"; "1,kzg,verify,3,8";
      "1,ipa,setup,3,500"; "1,ipa,commit,3,600"; "1,ipa,open,3,700"; "1,ipa,verify,3,16"; "1,transparent_ipa,setup,3,900";
      "1,transparent_ipa,commit,3,1000"; "1,transparent_ipa,open,3,1100"; "1,transparent_ipa,verify,3,24"], Ok tt) /\
  ex122_pc ["pc"; "--help"] = (usage_line pc_usage, Ok tt) /\ asks_help ["pc"; "--help"] /\
  ex122_pc ["pc"; "1"; "x"] = ([], Panic).
Proof.
  split; [vm_compute; reflexivity|]. split; [vm_compute; reflexivity|]. split; [|vm_compute; reflexivity].
  exists "pc", ["--help"]. split; [discriminate|]. right. right. repeat split; try discriminate; auto.
Qed.
Definition ex122_g16 (SS : snark Z ZPair (zp * list zp)) (args : list string) : list ascii * res unit :=
  g16_bench_stdout ex_clock ZPair ex_env toy_digest 9 ex_scalars ex_scalars ex_scalars zp (list zp) ex_scalars ex_hash (zq 0) [zq 0; zq 0] (fun o => o)
    ex_seed ex_u128 ZPair SS (toy_snark (fun c => flat_map (fun o => o) (snd c))) (toy_snark (fun c => List.concat (fst (fst c))))
    (@List.concat zp) 2%Z args.
(** an invalid proof: the rows up to the panic *)
Example C122_example_groth16 :
  ex122_g16 (toy_snark (fun c => snd c)) ["g"; "0"; "4"; "false"] =
    (ex_text ["trial,num_proofs,scheme,function,time"; "1,4,single_circuit,setup,100"; "1,4,single_circuit,prove,200"; "1,4,single_circuit,verify,300";
      "1,4,ipa,setup,400"; "1,4,complete_circuit,setup,500"; "1,4,complete_circuit,prove,600"; "1,4,complete_circuit,verify,700"], Ok tt) /\
  ex122_g16 (bad_snark (fun c => snd c)) ["g"; "1"; "2"] =
    (ex_text ["trial,num_proofs,scheme,function,time"; "1,2,single_circuit,setup,100"; "1,2,single_circuit,prove,200"; "1,2,single_circuit,verify,300"], Panic) /\
  ex122_g16 (toy_snark (fun c => snd c)) ["g"; "1"; "2"; "maybe"] = ([], Panic).
Proof. vm_compute. repeat split. Qed.

(** C110: what the plotting script shows of the files of the scaling example. *)
Require Import List Arith NArith ZArith Lia Bool String.
Require Import Coq.Floats.SpecFloat.
Import ListNotations.
Require Import Verif.Outcome Verif.Algebra Verif.Zp Verif.Rust Verif.Commitments Verif.Poly Verif.Floats Verif.Rng Verif.Sipp Verif.Bench Verif.Cli Verif.Report Verif.Scaling
  Verif.Plot Verif.PropsBase Verif.PropsGipa Verif.PropsSipp Verif.PropsTipa Verif.PropsBench Verif.PropsCli Verif.PropsScaling.
Local Open Scope list_scope.

(** ** The drawings, written down independently *)
(** average time for size 2^i (0 direct, 1 prover, 2 verifier) when the sizes start at 2^lo, as in C91 *)
Definition mean (clock : nat -> N) (lo i c : nat) : spec_float := average (measured clock (before lo i) (reps i) c).
Definition size_x (i : nat) : spec_float := f64_of_Z (2 ^ Z.of_nat i).
Definition is_zero (x : spec_float) : bool := match x with S754_zero _ => true | _ => false end.
Definition positive (x : spec_float) : bool := match x with S754_finite false _ _ => true | _ => false end.
Definition finite (x : spec_float) : bool := match x with S754_finite _ _ _ | S754_zero _ => true | _ => false end.
(** a line with logarithmic scale: times that are 0 are missing *)
Definition log_line clock lo sizes c : list point :=
  map (fun i => (size_x i, mean clock lo i c)) (filter (fun i => positive (mean clock lo i c)) sizes).
Definition linear_line clock lo sizes c : list point :=
  map (fun i => (size_x i, mean clock lo i c)) (filter (fun i => finite (mean clock lo i c)) sizes).
Definition ratio clock lo i : spec_float := SFdiv 53 1024 (mean clock lo i 0) (mean clock lo i 2).
Definition ratio_line clock lo sizes : list point :=
  map (fun i => (size_x i, ratio clock lo i)) (filter (fun i => negb (is_zero (mean clock lo i 2)) && finite (ratio clock lo i)) sizes).

Definition file_of (t : N) : string := ("data/ipp-" ++ dec t ++ "-threads.csv")%string.
(** the sizes left of 2^lo, .., 2^(lo+n-1) without the 2nd to the 13th *)
Definition thinned (lo n : nat) : list nat := firstn 1 (seq lo n) ++ seq (lo + 13) (n - 13).
Definition threads_drawn : list N := [1; 2; 4; 8]%N.
Definition all_drawings (clock : N -> nat -> N) (lo : nat) (n : N -> nat) : list drawing :=
  let line t c := log_line (clock t) lo (seq lo (n t)) c in
  [mk_drawing "plots/ipp-1-thread.pdf" None (map (line 1%N) [0; 1; 2]);
   mk_drawing "plots/ipp-direct-across-threads.pdf" None (map (fun t => line t 0) threads_drawn);
   mk_drawing "plots/ipp-prover-across-threads.pdf" None (map (fun t => line t 1) threads_drawn);
   mk_drawing "plots/ipp-verifier-across-threads.pdf" None (map (fun t => line t 2) threads_drawn);
   mk_drawing "plots/ipp-ratio.pdf" None (map (fun t => ratio_line (clock t) lo (seq lo (n t))) threads_drawn);
   mk_drawing "plots/ipp-1-thread-linear.pdf" (Some (map (fun j => 2 ^ j) [1; 14; 15; 16; 17])%N)
     (map (linear_line (clock 1%N) lo (thinned lo (n 1%N))) [0; 1; 2])].
(** the drawings made before the first one without any point, and whether there is none such *)
Definition empty_drawing (d : drawing) : bool := forallb (fun l => match l with [] => true | _ => false end) (dr_lines d).
Fixpoint until_empty (l : list drawing) : list drawing * bool :=
  match l with
  | [] => ([], true)
  | d :: l => if empty_drawing d then ([], false) else (d :: fst (until_empty l), snd (until_empty l))
  end.

(** ** Proofs *)
Lemma shown_log x : shown true x = positive x.
Proof. destruct x as [[]|[]| |[]]; reflexivity. Qed.
Lemma shown_linear x : shown false x = finite x.
Proof. destruct x as [[]|[]| |[]]; reflexivity. Qed.
Lemma size_positive i : i < 64 -> shown true (size_x i) = true.
Proof.
  intros H. assert (Ha : forallb (fun i => shown true (size_x i)) (seq 0 64) = true) by (vm_compute; reflexivity).
  rewrite forallb_forall in Ha. apply Ha. apply in_seq. lia.
Qed.
Lemma size_shown b i : i < 64 -> shown b (size_x i) = true.
Proof. intros H. apply size_positive in H. revert H. destruct (size_x i) as [[]|[]| |[]], b; cbn; congruence. Qed.

Lemma size_column clock k i : i < 64 -> column scaling_header (scaling_row clock k i) "size" = Some (size_x i).
Proof.
  intros H. unfold column, scaling_header, scaling_row. cbn [position String.eqb Ascii.eqb Bool.eqb nth_error number].
  rewrite parse_small.
  - cbn [option_map]. unfold size_x. do 2 f_equal. rewrite N2Z.inj_pow. f_equal. apply nat_N_Z.
  - apply N.pow_lt_mono_r; lia.
Qed.
Definition column_names : list string := ["direct"; "prover"; "verifier"]%string.
Lemma time_column clock lo i c name : nth_error column_names c = Some name ->
  column scaling_header (scaling_row clock (before lo i) i) name = Some (mean clock lo i c).
Proof.
  intros H. destruct c as [|[|[|c]]]; cbn in H; try (injection H as <-; reflexivity). destruct c; discriminate.
Qed.

Lemma flat_map_filter {A B} (f : A -> B) (p : A -> bool) (g : A -> list B) l : (forall a, In a l -> g a = if p a then [f a] else []) ->
  flat_map g l = map f (filter p l).
Proof.
  induction l as [|a l IH]; intros H; [reflexivity|]. cbn [flat_map filter]. rewrite (H a (in_eq _ _)), IH by (intros; apply H; now right).
  now destruct (p a).
Qed.
Lemma flat_map_map {A B C} (f : A -> B) (g : B -> list C) l : flat_map g (map f l) = flat_map (fun a => g (f a)) l.
Proof. induction l as [|a l IH]; [reflexivity|]. cbn. now rewrite IH. Qed.

Section Lines.
  Variables (clock : nat -> N) (lo : nat).
  Notation row i := (scaling_row clock (before lo i) i).

  Lemma rows_time (lx ly : bool) (sizes : list nat) c name : nth_error column_names c = Some name -> (forall i, In i sizes -> i < 64) ->
    flat_map (row_points lx ly scaling_header (Column name)) (map (fun i => row i) sizes) =
    map (fun i => (size_x i, mean clock lo i c)) (filter (fun i => shown ly (mean clock lo i c)) sizes).
  Proof.
    intros Hc Hs. rewrite flat_map_map. apply flat_map_filter. intros i Hi. unfold row_points. rewrite (size_column clock _ i (Hs i Hi)).
    cbn [y_value]. rewrite (time_column clock lo i c name Hc), (size_shown lx i (Hs i Hi)). reflexivity.
  Qed.
  Lemma rows_ratio (lx : bool) (sizes : list nat) : (forall i, In i sizes -> i < 64) ->
    flat_map (row_points lx false scaling_header (Quotient "direct" "verifier")) (map (fun i => row i) sizes) = ratio_line clock lo sizes.
  Proof.
    intros Hs. unfold ratio_line. rewrite flat_map_map. apply flat_map_filter. intros i Hi. unfold row_points. rewrite (size_column clock _ i (Hs i Hi)).
    cbn [y_value]. rewrite (time_column clock lo i 0 "direct" eq_refl), (time_column clock lo i 2 "verifier" eq_refl). unfold ratio.
    destruct (mean clock lo i 2) as [z|z| |z m e] eqn:Em; cbn [is_zero negb andb]; [reflexivity|..]; rewrite (size_shown lx i (Hs i Hi)), shown_linear; reflexivity.
  Qed.

  Lemma table_shape n : scaling_table clock lo n = match n with 0 => [] | _ => scaling_header :: map (fun i => row i) (seq lo n) end.
  Proof. reflexivity. Qed.

  Lemma points_log files t n c name title : files (file_of t) = scaling_table clock lo n -> lo + n <= 64 -> nth_error column_names c = Some name ->
    points true true files (mk_series (file_of t) None (Column name) title) = log_line clock lo (seq lo n) c.
  Proof.
    intros Hf Hn Hc. unfold points. cbn [sr_file sr_delete sr_y sed_delete]. rewrite Hf, table_shape. destruct n as [|n]; [reflexivity|].
    rewrite (rows_time true true (seq lo (S n)) c name Hc) by (intros i Hi; apply in_seq in Hi; lia).
    unfold log_line. f_equal; try (apply filter_ext; intros i; apply shown_log).
  Qed.
  Lemma points_ratio files t n title : files (file_of t) = scaling_table clock lo n -> lo + n <= 64 ->
    points true false files (mk_series (file_of t) None (Quotient "direct" "verifier") title) = ratio_line clock lo (seq lo n).
  Proof.
    intros Hf Hn. unfold points. cbn [sr_file sr_delete sr_y sed_delete]. rewrite Hf, table_shape. destruct n as [|n]; [reflexivity|].
    apply rows_ratio. intros i Hi. apply in_seq in Hi. lia.
  Qed.
  Lemma skipn_seq k n a : skipn k (seq a n) = seq (a + k) (n - k).
  Proof.
    revert n a. induction k as [|k IH]; intros n a; [cbn; rewrite Nat.add_0_r, Nat.sub_0_r; reflexivity|]. destruct n as [|n]; [reflexivity|].
    cbn [seq skipn Nat.sub]. rewrite IH. f_equal; lia.
  Qed.
  Lemma points_thinned files t n c name title : files (file_of t) = scaling_table clock lo n -> lo + n <= 64 -> nth_error column_names c = Some name ->
    points false false files (mk_series (file_of t) (Some (3, 14)) (Column name) title) = linear_line clock lo (thinned lo n) c.
  Proof.
    intros Hf Hn Hc. unfold points. cbn [sr_file sr_delete sr_y]. rewrite Hf, table_shape. destruct n as [|n]; [reflexivity|].
    assert (Hd : sed_delete (Some (3, 14)) (scaling_header :: map (fun i => row i) (seq lo (S n))) = scaling_header :: map (fun i => row i) (thinned lo (S n))).
    { unfold sed_delete, thinned. cbn [Nat.sub]. change (skipn 14 (scaling_header :: map (fun i => row i) (seq lo (S n)))) with (skipn 13 (map (fun i => row i) (seq lo (S n)))).
      rewrite map_app, <- firstn_map, skipn_map, skipn_seq. reflexivity. }
    rewrite Hd. rewrite (rows_time false false (thinned lo (S n)) c name Hc).
    - unfold linear_line. f_equal; try (apply filter_ext; intros i; apply shown_linear).
    - intros i Hi. unfold thinned in Hi. apply in_app_or in Hi as [Hi|Hi].
      + cbn in Hi. lia.
      + apply in_seq in Hi. lia.
  Qed.
End Lines.

Lemma concat_empty {A} (ls : list (list A)) : forallb (fun l => match l with [] => true | _ => false end) ls = match List.concat ls with [] => true | _ => false end.
Proof. induction ls as [|[|a l] ls IH]; [reflexivity|exact IH|reflexivity]. Qed.

Lemma run_plot lx ly ticks files output l cs ds :
  run_plots lx ly ticks files cs = until_empty ds ->
  run_plots lx ly ticks files (Plot output l :: cs) = until_empty (mk_drawing output ticks (map (points lx ly files) l) :: ds).
Proof.
  intros H. cbn [run_plots until_empty]. unfold empty_drawing. cbn [dr_lines]. rewrite concat_empty.
  destruct (List.concat _); [reflexivity|]. rewrite H. now destruct (until_empty ds).
Qed.

(** The files hold a beginning of the table of C91 for each number of threads: exactly these drawings are made. *)
Theorem C110_drawings files (clock : N -> nat -> N) lo (n : N -> nat) :
  (forall t, In t threads_drawn -> files (file_of t) = scaling_table (clock t) lo (n t) /\ lo + n t <= 64) ->
  gnuplot files = until_empty (all_drawings clock lo n).
Proof.
  intros H. unfold gnuplot, script, all_drawings.
  assert (H1 := H 1%N ltac:(cbn; auto)). assert (H2 := H 2%N ltac:(cbn; auto)). assert (H4 := H 4%N ltac:(cbn; auto)). assert (H8 := H 8%N ltac:(cbn; auto 6)).
  destruct H1 as [H1 L1], H2 as [H2 L2], H4 as [H4 L4], H8 as [H8 L8].
  assert (Hone : map (points true true files) (one_thread None) = map (fun c => log_line (clock 1%N) lo (seq lo (n 1%N)) c) [0; 1; 2]).
  { unfold one_thread. cbn [map]. rewrite <- (points_log (clock 1%N) lo files 1%N (n 1%N) 0 "direct" "Direct" H1 L1 eq_refl),
      <- (points_log (clock 1%N) lo files 1%N (n 1%N) 1 "prover" "Prover" H1 L1 eq_refl), <- (points_log (clock 1%N) lo files 1%N (n 1%N) 2 "verifier" "Verifier" H1 L1 eq_refl). reflexivity. }
  assert (Hacross : forall c name, nth_error column_names c = Some name ->
    map (points true true files) (across (Column name)) = map (fun t => log_line (clock t) lo (seq lo (n t)) c) threads_drawn).
  { intros c name Hc. unfold across, threads_drawn. cbn [map].
    rewrite <- (points_log (clock 1%N) lo files 1%N (n 1%N) c name "1 thread" H1 L1 Hc), <- (points_log (clock 2%N) lo files 2%N (n 2%N) c name "2 threads" H2 L2 Hc),
      <- (points_log (clock 4%N) lo files 4%N (n 4%N) c name "4 threads" H4 L4 Hc), <- (points_log (clock 8%N) lo files 8%N (n 8%N) c name "8 threads" H8 L8 Hc). reflexivity. }
  assert (Hratio : map (points true false files) (across (Quotient "direct" "verifier")) = map (fun t => ratio_line (clock t) lo (seq lo (n t))) threads_drawn).
  { unfold across, threads_drawn. cbn [map].
    rewrite <- (points_ratio (clock 1%N) lo files 1%N (n 1%N) "1 thread" H1 L1), <- (points_ratio (clock 2%N) lo files 2%N (n 2%N) "2 threads" H2 L2),
      <- (points_ratio (clock 4%N) lo files 4%N (n 4%N) "4 threads" H4 L4), <- (points_ratio (clock 8%N) lo files 8%N (n 8%N) "8 threads" H8 L8). reflexivity. }
  assert (Hlin : map (points false false files) (one_thread (Some (3, 14))) = map (linear_line (clock 1%N) lo (thinned lo (n 1%N))) [0; 1; 2]).
  { unfold one_thread. cbn [map]. rewrite <- (points_thinned (clock 1%N) lo files 1%N (n 1%N) 0 "direct" "Direct" H1 L1 eq_refl),
      <- (points_thinned (clock 1%N) lo files 1%N (n 1%N) 1 "prover" "Prover" H1 L1 eq_refl), <- (points_thinned (clock 1%N) lo files 1%N (n 1%N) 2 "verifier" "Verifier" H1 L1 eq_refl). reflexivity. }
  cbv beta zeta. rewrite <- Hone, <- (Hacross 0 "direct"%string eq_refl), <- (Hacross 1 "prover"%string eq_refl), <- (Hacross 2 "verifier"%string eq_refl), <- Hratio, <- Hlin.
  match goal with |- run_plots _ _ _ _ (_ :: _ :: ?cs) = _ => transitivity (run_plots true true None files cs); [reflexivity|] end.
  do 4 apply run_plot.
  match goal with |- run_plots _ _ _ _ (_ :: ?cs) = _ => transitivity (run_plots true false None files cs); [reflexivity|] end.
  apply run_plot.
  match goal with |- run_plots _ _ _ _ (_ :: Ticks ?l :: ?cs) = _ => transitivity (run_plots false false (Some l) files cs); [reflexivity|] end.
  apply (run_plot false false (Some (map (fun j => 2 ^ j) [1; 14; 15; 16; 17])%N) files _ _ [] []). reflexivity.
Qed.
Print Assumptions C110_drawings.

Lemma filter_all {A} (p : A -> bool) l : (forall a, In a l -> p a = true) -> filter p l = l.
Proof. induction l as [|a l IH]; intros H; [reflexivity|]. cbn. rewrite (H a (in_eq _ _)), IH; auto. intros x Hx. apply H. now right. Qed.
Lemma positive_finite x : positive x = true -> finite x = true.
Proof. destruct x as [[]|[]| |[]]; cbn; congruence. Qed.
Lemma positive_nonzero x : positive x = true -> is_zero x = false.
Proof. destruct x as [[]|[]| |[]]; cbn; congruence. Qed.
Lemma xs_log clock lo sizes c : (forall i, In i sizes -> positive (mean clock lo i c) = true) -> map fst (log_line clock lo sizes c) = map size_x sizes.
Proof. intros H. unfold log_line. rewrite filter_all by exact H. rewrite map_map. reflexivity. Qed.
Lemma xs_linear clock lo sizes c : (forall i, In i sizes -> finite (mean clock lo i c) = true) -> map fst (linear_line clock lo sizes c) = map size_x sizes.
Proof. intros H. unfold linear_line. rewrite filter_all by exact H. rewrite map_map. reflexivity. Qed.
Lemma xs_ratio clock lo sizes : (forall i, In i sizes -> positive (mean clock lo i 2) = true /\ finite (ratio clock lo i) = true) ->
  map fst (ratio_line clock lo sizes) = map size_x sizes.
Proof.
  intros H. unfold ratio_line. rewrite filter_all; [rewrite map_map; reflexivity|]. intros i Hi. destruct (H i Hi) as [H1 H2].
  rewrite (positive_nonzero _ H1), H2. reflexivity.
Qed.
Lemma in_thinned lo n i : In i (thinned lo n) -> In i (seq lo n).
Proof.
  unfold thinned. intros H. apply in_app_or in H as [H|H]; [destruct n; cbn in *; tauto|]. apply in_seq in H. apply in_seq. lia.
Qed.
Lemma not_empty out ticks lines : Exists (fun l => l <> []) lines -> empty_drawing (mk_drawing out ticks lines) = false.
Proof.
  unfold empty_drawing. cbn [dr_lines]. induction 1 as [l ls H|l ls H IH]; cbn [forallb]; [destruct l; [congruence|reflexivity]|].
  rewrite IH. apply andb_false_r.
Qed.

(** If no average is 0 or infinite and no quotient infinite, all six files are drawn and every line has all its sizes. *)
Theorem C110_complete files (clock : N -> nat -> N) lo (n : N -> nat) :
  (forall t, In t threads_drawn -> files (file_of t) = scaling_table (clock t) lo (n t) /\ lo + n t <= 64 /\ 1 <= n t /\
     forall i, lo <= i < lo + n t -> (forall c, c < 3 -> positive (mean (clock t) lo i c) = true) /\ finite (ratio (clock t) lo i) = true) ->
  exists ds, gnuplot files = (ds, true) /\
    map dr_file ds = map (fun s => "plots/ipp-" ++ s ++ ".pdf")%string
      ["1-thread"; "direct-across-threads"; "prover-across-threads"; "verifier-across-threads"; "ratio"; "1-thread-linear"]%string /\
    map (fun d => map (map fst) (dr_lines d)) ds =
      repeat (map size_x (seq lo (n 1%N))) 3 :: repeat (map (fun t => map size_x (seq lo (n t))) threads_drawn) 4 ++
      [repeat (map size_x (thinned lo (n 1%N))) 3].
Proof.
  intros H. exists (all_drawings clock lo n).
  assert (Hs : forall t, In t threads_drawn -> forall i, In i (seq lo (n t)) ->
     (forall c, c < 3 -> positive (mean (clock t) lo i c) = true) /\ finite (ratio (clock t) lo i) = true).
  { intros t Ht i Hi. apply in_seq in Hi. destruct (H t Ht) as [_ [_ [_ H']]]. now apply H'. }
  assert (Hl : forall t, In t threads_drawn -> forall c, c < 3 -> map fst (log_line (clock t) lo (seq lo (n t)) c) = map size_x (seq lo (n t))).
  { intros t Ht c Hc. apply xs_log. intros i Hi. now apply (Hs t Ht i Hi). }
  assert (Hr : forall t, In t threads_drawn -> map fst (ratio_line (clock t) lo (seq lo (n t))) = map size_x (seq lo (n t))).
  { intros t Ht. apply xs_ratio. intros i Hi. destruct (Hs t Ht i Hi) as [H1 H2]. split; [apply H1; lia|exact H2]. }
  assert (Ht1 : In 1%N threads_drawn) by (cbn; auto). assert (Ht2 : In 2%N threads_drawn) by (cbn; auto).
  assert (Ht4 : In 4%N threads_drawn) by (cbn; auto). assert (Ht8 : In 8%N threads_drawn) by (cbn; auto 6).
  assert (Hn : forall c, c < 3 -> map fst (linear_line (clock 1%N) lo (thinned lo (n 1%N)) c) = map size_x (thinned lo (n 1%N))).
  { intros c Hc. apply xs_linear. intros i Hi. apply positive_finite. now apply (Hs 1%N Ht1 i (in_thinned _ _ _ Hi)). }
  assert (Hne : seq lo (n 1%N) <> [] /\ thinned lo (n 1%N) <> []).
  { destruct (H 1%N Ht1) as [_ [_ [H1 _]]]. destruct (n 1%N); [lia|]. unfold thinned. cbn. split; discriminate. }
  split; [|split; [reflexivity|]].
  - rewrite (C110_drawings files clock lo n) by (intros t Ht; destruct (H t Ht) as [H1 [H2 _]]; auto).
    assert (He : forall d, In d (all_drawings clock lo n) -> empty_drawing d = false).
    { assert (Hx : forall (f : list point) ys, map fst f = map size_x ys -> ys <> [] -> f <> []) by (intros f ys Hf Hy ->; destruct ys; [congruence|discriminate]).
      intros d Hd. unfold all_drawings in Hd. cbv zeta in Hd. cbn [In] in Hd.
      repeat (destruct Hd as [<-|Hd]); try contradiction; apply not_empty; apply Exists_cons_hd.
      1-4: first [exact (Hx _ _ (Hl 1%N Ht1 0 ltac:(lia)) (proj1 Hne))|exact (Hx _ _ (Hl 1%N Ht1 1 ltac:(lia)) (proj1 Hne))|exact (Hx _ _ (Hl 1%N Ht1 2 ltac:(lia)) (proj1 Hne))].
      - apply (Hx _ _ (Hr 1%N Ht1) (proj1 Hne)).
      - apply (Hx _ _ (Hn 0 ltac:(lia)) (proj2 Hne)). }
    revert He. generalize (all_drawings clock lo n). induction l as [|d l IH]; intros He; [reflexivity|]. cbn [until_empty].
    rewrite (He d (in_eq _ _)), IH by (intros x Hx; apply He; now right). reflexivity.
  - unfold all_drawings, threads_drawn. cbv beta zeta. cbn [map dr_lines repeat app].
    rewrite !Hl, !Hr, !Hn by (auto; lia). reflexivity.
Qed.
Print Assumptions C110_complete.

(** The last plot has its marks where its points are exactly for the sizes 2^1, .., 2^17. *)
Theorem C110_ticks clock : (forall i c, 1 <= i <= 17 -> c < 3 -> finite (mean clock 1 i c) = true) ->
  forall c, c < 3 -> map fst (linear_line clock 1 (thinned 1 17) c) = map (fun m => f64_of_Z (Z.of_N m)) [2; 2 ^ 14; 2 ^ 15; 2 ^ 16; 2 ^ 17]%N.
Proof.
  intros H c Hc. rewrite xs_linear; [reflexivity|]. intros i Hi. apply H; [|exact Hc]. apply in_thinned, in_seq in Hi. lia.
Qed.
Print Assumptions C110_ticks.

(** Times below a millisecond are measured as 0: "a complete file is drawn" is false. *)
Theorem C110_short_times_refuted lo n : 1 <= n -> lo + n <= 64 -> gnuplot (fun _ => scaling_table (fun _ => 0%N) lo n) = ([], false).
Proof.
  intros H1 Hn. rewrite (C110_drawings _ (fun _ _ => 0%N) lo (fun _ => n)) by (intros; auto).
  assert (Hz : forall i c, positive (mean (fun _ => 0%N) lo i c) = false).
  { intros i c. assert (Ht : forall l : list N, (forall t, In t l -> t = 0%N) -> total l = S754_zero false).
    { intros l. unfold total. induction l as [|t l IH]; intros Hl; [reflexivity|]. rewrite (Hl t (in_eq _ _)). cbn [map fold_left].
      change (SFadd 53 1024 (S754_zero false) (SFdiv 53 1024 (f64_of_Z (Z.of_N 0)) (f64_of_Z 1000))) with (S754_zero false). apply IH. intros x Hx. apply Hl. now right. }
    unfold mean, average. rewrite Ht by (intros t Hin; apply in_map_iff in Hin as [? [<- _]]; reflexivity).
    destruct (f64_of_Z _) as [[]|[]| |[]]; reflexivity. }
  assert (Hl : forall l c, log_line (fun _ => 0%N) lo l c = []).
  { intros l c. unfold log_line. induction l as [|a l IH]; [reflexivity|]. cbn [filter]. rewrite Hz. exact IH. }
  unfold all_drawings. cbv zeta.
  match goal with |- until_empty (?d :: ?ds) = _ =>
    transitivity (if empty_drawing d then ([], false) else (d :: fst (until_empty ds), snd (until_empty ds))); [reflexivity|];
    assert (He : empty_drawing d = true) by (unfold empty_drawing; cbn [dr_lines map forallb]; rewrite !Hl; reflexivity); rewrite He; reflexivity
  end.
Qed.
Print Assumptions C110_short_times_refuted.

(** From the four runs of the scaling example to the drawings. *)
Section Runs.
  Variables (clock : N -> nat -> N) (checks : bool).
  Context {P : pairing}.
  Variables (E : N -> penv) (S : stream) (D : bytes -> bytes).
  Context {R : Type}.
  Variables (sh1 : list (pG1 P) -> R -> list (pG1 P) * R) (sh2 : list (pG2 P) -> R -> list (pG2 P) * R).
  Variables (rand : sampler R (pK P)) (r1 : sampler R (pG1 P)) (r2 : sampler R (pG2 P)).
  Variables (rng : N -> R) (env : N -> option string) (pool : N -> N).
  Notation program t := (scaling_program (clock t) checks P (E t) S D sh1 sh2 rand r1 r2 (rng t) (env t) (pool t)).

  Lemma ended_file t args : snd (program t args) = Ok tt -> exists name table, fst (program t args) = Some (name, table).
  Proof.
    unfold scaling_program. destruct (rbind _ _) as [[[[[lo hi] dir] th] n]| | |]; try discriminate.
    destruct (r1 (rng t)) as [g x1]. destruct (r2 x1) as [h x2]. destruct (rand x2) as [r x3].
    destruct (ipp_loop_csv _ _ _ _ _ _ _ _ _ _ _ _ _ _ _) as [rows x]. intros _. do 2 eexists. reflexivity.
  Qed.

  Theorem C110_runs prog lo hi rest files : hi < 64 -> lo <= hi ->
    let args := prog :: dec (N.of_nat lo) :: dec (N.of_nat hi) :: "data"%string :: rest in
    (forall t, In t threads_drawn -> named_threads (env t) (pool t) t /\ snd (program t args) = Ok tt /\
       forall name table, fst (program t args) = Some (name, table) -> files name = table) ->
    gnuplot files = until_empty (all_drawings clock lo (fun _ => hi + 1 - lo)).
  Proof using.
    intros Hhi Hlo args H. apply C110_drawings. intros t Ht. destruct (H t Ht) as [Hnt [Hok Hf]]. split; [|lia].
    assert (Hlt : (N.of_nat lo < 2 ^ 64)%N).
    { assert (Hp : (N.of_nat lo < 64)%N) by lia. eapply N.lt_trans; [exact Hp|reflexivity]. }
    destruct (ended_file t args Hok) as [name [table Hs]].
    destruct (C91_file (clock t) checks (E t) S D sh1 sh2 rand r1 r2 (rng t) prog lo hi "data" rest (env t) (pool t) Hhi Hlt) as [[Hn _]|[t' [Hnt' [Hm [_ Hall]]]]].
    - destruct (Hn t Hnt).
    - fold args in Hm, Hall. destruct (Hall name table Hs) as [Hname [n [Hle [Htab [Hend _]]]]].
      assert (Et : t' = t).
      { apply num_threads_named in Hnt, Hnt'. rewrite Hnt in Hnt'. now injection Hnt'. }
      assert (En : n = hi + 1 - lo) by (apply Hend; now rewrite <- Hm).
      rewrite <- En, <- Htab. rewrite <- (Hf name table Hs). f_equal. rewrite Hname, Et. unfold file_of. reflexivity.
  Qed.
End Runs.
Print Assumptions C110_runs.

(** Sizes 2^14, 2^15, 2^16 with all times one second more than the number of the measurement; three points in each line, one in the last plot;
    without the file for four threads its lines are empty. *)
Local Open Scope string_scope.
Definition ex_clock (k : nat) : N := 1000 + N.of_nat k.
Definition ex_files (missing : string) (name : string) : list (list cell) :=
  if String.eqb name missing then [] else scaling_table ex_clock 14 3.
Definition ex_lengths (files : string -> list (list cell)) : list (list nat) * bool :=
  let (ds, ended) := gnuplot files in (map (fun d => map (@List.length point) (dr_lines d)) ds, ended).
Example C110_example :
  ex_lengths (ex_files "") = ([[3; 3; 3]; [3; 3; 3; 3]; [3; 3; 3; 3]; [3; 3; 3; 3]; [3; 3; 3; 3]; [1; 1; 1]], true) /\
  ex_lengths (ex_files "data/ipp-4-threads.csv") = ([[3; 3; 3]; [3; 3; 0; 3]; [3; 3; 0; 3]; [3; 3; 0; 3]; [3; 3; 0; 3]; [1; 1; 1]], true) /\
  ex_lengths (ex_files "data/ipp-1-threads.csv") = ([], false) /\
  map file_of threads_drawn = ["data/ipp-1-threads.csv"; "data/ipp-2-threads.csv"; "data/ipp-4-threads.csv"; "data/ipp-8-threads.csv"].
Proof. vm_compute. repeat split; reflexivity. Qed.
Example C110_hypotheses : forall i c, 14 <= i < 14 + 3 -> c < 3 -> positive (mean ex_clock 14 i c) = true /\ finite (ratio ex_clock 14 i) = true.
Proof.
  intros i c Hi Hc. assert (H : forallb (fun i => forallb (fun c => positive (mean ex_clock 14 i c) && finite (ratio ex_clock 14 i)) [0; 1; 2]) [14; 15; 16] = true) by (vm_compute; reflexivity).
  rewrite forallb_forall in H. specialize (H i ltac:(cbn; lia)). rewrite forallb_forall in H. specialize (H c ltac:(cbn; lia)). now apply andb_true_iff in H.
Qed.
Example C110_ticks_example : forall c, c < 3 -> List.length (linear_line (fun _ => 5%N) 1 (thinned 1 17) c) = 5.
Proof.
  intros c Hc. rewrite <- (map_length (fst : point -> spec_float)), C110_ticks; [reflexivity| |exact Hc].
  assert (H : forallb (fun i => finite (average (measured (fun _ => 5%N) 0 (reps i) 0))) (seq 1 17) = true) by (vm_compute; reflexivity).
  intros i c' Hi _. rewrite forallb_forall in H. specialize (H i ltac:(apply in_seq; lia)). exact H.
Qed.
(** four runs for the size 2^1 that meet the hypotheses of [C110_runs] (the pool has 1, 2, 4, 8 threads) *)
Example C110_runs_example : gnuplot (fun _ => scaling_table ex_clock 1 1) = until_empty (all_drawings (fun _ => ex_clock) 1 (fun _ => 1)).
Proof.
  apply (C110_runs (fun _ => ex_clock) true (P := ZPair) (fun _ => ex_env) toy_stream five_digest (fun l (z : Z) => (rev l, z)) (fun l z => (l, z))
    ex_scalars ex_scalars ex_scalars (fun _ => 2%Z) (fun _ => None) (fun t => t) "scaling-ipp" 1 1 []); [lia..|].
  intros t _. assert (Hnt : named_threads None t t) by reflexivity. split; [exact Hnt|].
  assert (Hm : scaling_ipp true ZPair ex_env toy_stream five_digest (fun l (z : Z) => (rev l, z)) (fun l z => (l, z)) ex_scalars ex_scalars ex_scalars 2%Z 1 1 = Ok tt) by (vm_compute; reflexivity).
  destruct (C91_file ex_clock true (P := ZPair) ex_env toy_stream five_digest (fun l (z : Z) => (rev l, z)) (fun l z => (l, z))
    ex_scalars ex_scalars ex_scalars 2%Z "scaling-ipp" 1 1 "data" [] None t ltac:(lia) eq_refl) as [[Hn _]|[t' [_ [Hs [_ Hall]]]]].
  - destruct (Hn t Hnt).
  - rewrite Hm in Hs. split; [exact Hs|]. intros name table Hf. destruct (Hall name table Hf) as [_ [n [_ [-> [Hn _]]]]].
    now rewrite (proj1 Hn Hm).
Qed.

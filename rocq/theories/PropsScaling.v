(** C91: the file written by the scaling example of SIPP. *)
Require Import List Arith NArith ZArith Lia Bool String.
Require Import Coq.Floats.SpecFloat.
Import ListNotations.
Require Import Verif.Outcome Verif.Algebra Verif.Zp Verif.Rust Verif.InnerProducts Verif.Commitments
  Verif.Poly Verif.Floats Verif.Rng Verif.Sipp Verif.Bench Verif.Cli Verif.Report Verif.Scaling Verif.Spec
  Verif.ListFacts Verif.RustFacts Verif.FloatFacts Verif.SerFacts Verif.SippFacts
  Verif.PropsBase Verif.PropsGipa Verif.PropsSipp Verif.PropsTipa Verif.PropsBench Verif.PropsCli.
Local Open Scope list_scope.

(** ** The table, written down independently *)
(** how often a size is measured (size 2^6 only once) *)
Definition reps (i : nat) : nat := nth i [1; 20; 20; 20; 20; 20; 1; 10; 10; 10; 10; 5; 5; 5] 1.
(** iterations made before size 2^i, when the sizes start at 2^lo *)
Definition before (lo i : nat) : nat := list_sum (map reps (seq lo (i - lo))).
(** average in binary64: milliseconds divided by 1000 each, added from the left starting with 0, divided by their number *)
Definition total (ms : list N) : spec_float :=
  fold_left (SFadd 53 1024) (map (fun t => SFdiv 53 1024 (f64_of_Z (Z.of_N t)) (f64_of_Z 1000)) ms) (S754_zero false).
Definition average (ms : list N) : spec_float := SFdiv 53 1024 (total ms) (f64_of_Z (Z.of_nat (List.length ms))).
(** measurement number [c] (0 direct, 1 prover, 2 verifier) of the iterations [k], [k+1], .. *)
Definition measured (clock : nat -> N) (k n c : nat) : list N := map (fun t => clock (3 * (k + t) + c)) (seq 0 n).
Definition scaling_row (clock : nat -> N) (k i : nat) : list cell :=
  [Text (dec (2 ^ N.of_nat i)); Real (average (measured clock k (reps i) 0));
   Real (average (measured clock k (reps i) 1)); Real (average (measured clock k (reps i) 2))].
Definition scaling_header : list cell := [Text "size"; Text "direct"; Text "prover"; Text "verifier"].
(** header and rows for the sizes 2^lo, .., 2^(lo+n-1); no header if there is no row *)
Definition scaling_table (clock : nat -> N) (lo n : nat) : list (list cell) :=
  match n with O => [] | _ => scaling_header :: map (fun i => scaling_row clock (before lo i) i) (seq lo n) end.

Lemma num_iters_reps i : num_iters i = reps i.
Proof.
  destruct (Nat.lt_ge_cases i 14) as [H|H].
  - do 14 (destruct i as [|i]; [reflexivity|]). lia.
  - unfold reps. rewrite nth_overflow by (cbn; lia). unfold num_iters.
    rewrite (proj2 (Nat.leb_gt i 5)), (proj2 (Nat.leb_gt i 10)), (proj2 (Nat.leb_gt i 13)), !andb_false_r by lia. reflexivity.
Qed.
Lemma before_start lo : before lo lo = 0.
Proof. unfold before. now rewrite Nat.sub_diag. Qed.
Lemma before_next lo i : lo <= i -> before lo (i + 1) = before lo i + reps i.
Proof.
  intros H. unfold before. replace (i + 1 - lo) with (S (i - lo)) by lia. rewrite seq_S, map_app, list_sum_app. cbn.
  replace (lo + (i - lo)) with i by lia. lia.
Qed.

Section Table.
  Variable clock : nat -> N.
  Variable checks : bool.
  Context {P : pairing}.
  Variables (E : penv) (S : stream) (D : bytes -> bytes).
  Context {R : Type}.
  Variables (sh1 : list (pG1 P) -> R -> list (pG1 P) * R) (sh2 : list (pG2 P) -> R -> list (pG2 P) * R).

  Definition added (x : spec_float) (ms : list N) : spec_float :=
    fold_left (SFadd 53 1024) (map (fun t => SFdiv 53 1024 (f64_of_Z (Z.of_N t)) (f64_of_Z 1000)) ms) x.
  Definition from_ (k n c : nat) : list N := map (fun t => clock (k + 3 * t + c)) (seq 0 n).
  Lemma from_cons k n c : from_ k (Datatypes.S n) c = clock (k + c) :: from_ (k + 3) n c.
  Proof.
    unfold from_. cbn [seq map]. f_equal; [f_equal; lia|]. rewrite <- seq_shift, map_map. apply map_ext. intros t. f_equal. lia.
  Qed.

  Lemma iters_timed r n : forall k d p v a b rng,
    ipp_iters_timed clock P E S D sh1 sh2 r n k d p v a b rng =
    do x <- ipp_iters P E S D sh1 sh2 r n a b rng; Ok (added d (from_ k n 0), added p (from_ k n 1), added v (from_ k n 2), x).
  Proof.
    induction n as [|n IH]; intros k d p v a b rng; [reflexivity|]. cbn [ipp_iters_timed ipp_iters].
    destruct (sh1 a rng) as [a' rng1]. destruct (sh2 b rng1) as [b' rng2].
    destruct (product_of_pairings_with_coeffs P E a' b' r) as [z| | |]; cbn [rbind]; auto.
    destruct (sipp_prove P E S D a' b' r z) as [pf| | |]; cbn [rbind]; auto.
    destruct (sipp_verify P E S D a' b' r z pf) as [ok| | |]; cbn [rbind]; auto.
    destruct (rassert ok) as [[]| | |]; cbn [rbind]; auto.
    rewrite IH. rewrite !from_cons. unfold added. cbn [map fold_left]. rewrite Nat.add_0_r. reflexivity.
  Qed.

  Lemma from_measured k n c : from_ (3 * k) n c = measured clock k n c.
  Proof. apply map_ext. intros t. f_equal. lia. Qed.

  Fixpoint rows (k : nat) (sizes : list nat) : list (list cell) :=
    match sizes with [] => [] | i :: sizes => scaling_row clock k i :: rows (k + reps i) sizes end.
  Definition headed (l : list (list cell)) : list (list cell) := match l with [] => [] | _ => scaling_header :: l end.

  Lemma serialize_headed row l : serialize row (headed l) = headed (l ++ [row]).
  Proof. destruct l; [reflexivity|]. reflexivity. Qed.

  Lemma loop_csv r sizes : Forall (fun i => i < 64) sizes -> forall k a b rng l,
    snd (ipp_loop_csv clock checks P E S D sh1 sh2 r sizes (3 * k) a b rng (headed l)) = ipp_loop checks P E S D sh1 sh2 r sizes a b rng /\
    exists n, n <= List.length sizes /\
      fst (ipp_loop_csv clock checks P E S D sh1 sh2 r sizes (3 * k) a b rng (headed l)) = headed (l ++ rows k (firstn n sizes)) /\
      forall j, j <= List.length sizes -> (ipp_loop checks P E S D sh1 sh2 r (firstn j sizes) a b rng = Ok tt <-> j <= n).
  Proof.
    induction 1 as [|i sizes Hi HF IH]; intros k a b rng l.
    { split; [reflexivity|]. exists 0. split; [auto|]. split; [cbn; now rewrite app_nil_r|]. intros j Hj. cbn in Hj. replace j with 0 by lia. cbn. split; auto. }
    cbn [ipp_loop_csv ipp_loop]. rewrite shl_one_small by auto. cbn [rbind].
    assert (Hstop : forall (x : res unit), ipp_loop checks P E S D sh1 sh2 r [i] a b rng = x -> x <> Ok tt ->
      (forall sizes, ipp_loop checks P E S D sh1 sh2 r (i :: sizes) a b rng = x) ->
      exists n, n <= List.length (i :: sizes) /\ headed l = headed (l ++ rows k (firstn n (i :: sizes))) /\
      forall j, j <= List.length (i :: sizes) -> (ipp_loop checks P E S D sh1 sh2 r (firstn j (i :: sizes)) a b rng = Ok tt <-> j <= n)).
    { intros x _ Hx Hall. exists 0. split; [lia|]. split; [cbn; now rewrite app_nil_r|]. intros [|j] Hj; cbn [firstn].
      - split; auto.
      - rewrite Hall. split; [contradiction|lia]. }
    destruct (slice_to a (2 ^ i)) as [a_m| e | |] eqn:Ea; cbn [rbind].
    2-4: split; [reflexivity|]; eapply Hstop; [reflexivity| |intros sz]; cbn [ipp_loop]; rewrite shl_one_small by auto; cbn [rbind]; rewrite Ea; cbn [rbind]; [discriminate|reflexivity].
    destruct (slice_to b (2 ^ i)) as [b_m| e | |] eqn:Eb; cbn [rbind].
    2-4: split; [reflexivity|]; eapply Hstop; [reflexivity| |intros sz]; cbn [ipp_loop]; rewrite shl_one_small by auto; cbn [rbind]; rewrite Ea; cbn [rbind]; rewrite Eb; cbn [rbind]; [discriminate|reflexivity].
    rewrite iters_timed. destruct (ipp_iters P E S D sh1 sh2 r (num_iters i) a_m b_m rng) as [[[a' b'] rng']|e| |] eqn:Ei; cbn [rbind].
    2-4: split; [reflexivity|]; eapply Hstop; [reflexivity| |intros sz]; cbn [ipp_loop]; rewrite shl_one_small by auto; cbn [rbind]; rewrite Ea; cbn [rbind]; rewrite Eb; cbn [rbind]; rewrite Ei; cbn [rbind]; [discriminate|reflexivity].
    rewrite num_iters_reps. set (row := [Text _; _; _; _]).
    assert (Hrow : row = scaling_row clock k i).
    { unfold row, scaling_row, average, total. unfold measured at 2 4 6. rewrite !map_length, !seq_length, <- !from_measured. reflexivity. }
    rewrite serialize_headed, Hrow. replace (3 * k + 3 * reps i) with (3 * (k + reps i)) by lia.
    destruct (IH (k + reps i) (a' ++ skipn (2 ^ i) a) (b' ++ skipn (2 ^ i) b) rng' (l ++ [scaling_row clock k i])) as [H1 (n & Hn & H2 & H3)].
    split; [exact H1|]. exists (Datatypes.S n). split; [cbn; lia|]. split.
    - rewrite H2. cbn [firstn rows]. now rewrite <- app_assoc.
    - intros [|j] Hj; cbn [firstn]; [split; [lia|reflexivity]|]. cbn [ipp_loop]. rewrite shl_one_small by auto. cbn [rbind]. rewrite Ea. cbn [rbind]. rewrite Eb. cbn [rbind].
      rewrite Ei. cbn [rbind]. rewrite H3 by (cbn in Hj; lia). lia.
  Qed.

  Lemma rows_seq lo n : forall k i, lo <= i -> k = before lo i -> rows k (seq i n) = map (fun i => scaling_row clock (before lo i) i) (seq i n).
  Proof.
    induction n as [|n IH]; intros k i Hi ->; [reflexivity|]. cbn [seq rows map]. f_equal. apply IH; [lia|].
    rewrite <- Nat.add_1_r. now rewrite before_next.
  Qed.
  Lemma headed_table lo n : headed (rows 0 (seq lo n)) = scaling_table clock lo n.
  Proof. rewrite (rows_seq lo) by (auto; now rewrite before_start). destruct n; reflexivity. Qed.
End Table.

Lemma vec_len_panics checks hi : vec_len checks hi = Panic <-> checks = true /\ 32 <= hi.
Proof.
  unfold vec_len, shl_one. destruct (Nat.ltb_spec hi 32) as [H|H].
  - cbn [rbind]. split; [discriminate|intros [_ H']; lia].
  - destruct checks; cbn [rbind]; split; try discriminate; auto. now intros [H' _].
Qed.
(** the number of threads in the name: the environment variable, read as in C66, or the size of the pool if it is not set *)
Definition named_threads (env : option string) (pool threads : N) : Prop :=
  match env with None => threads = pool | Some s => numeral s threads /\ (threads < 2 ^ 64)%N end.
Lemma num_threads_named env pool threads : named_threads env pool threads <-> num_threads env pool = Ok threads.
Proof.
  unfold named_threads, num_threads. destruct env as [s|]; [|split; congruence].
  rewrite <- C66_numerals. destruct (parse_usize s); cbn [runwrap]; split; congruence.
Qed.

Section Program.
  Variable clock : nat -> N.
  Variable checks : bool.
  Context {P : pairing}.
  Variables (E : penv) (S : stream) (D : bytes -> bytes).
  Context {R : Type}.
  Variables (sh1 : list (pG1 P) -> R -> list (pG1 P) * R) (sh2 : list (pG2 P) -> R -> list (pG2 P) * R).
  Variables (rand : sampler R (pK P)) (r1 : sampler R (pG1 P)) (r2 : sampler R (pG2 P)).
  Notation program := (scaling_program clock checks P E S D sh1 sh2 rand r1 r2).
  Notation main := (scaling_ipp checks P E S D sh1 sh2 rand r1 r2).

  Lemma firstn_seq n lo m : n <= m -> firstn n (seq lo m) = seq lo n.
  Proof using. revert lo m. induction n as [|n IH]; intros lo m H; [reflexivity|]. destruct m; [lia|]. cbn. f_equal. apply IH. lia. Qed.

  (** the run of the program on its first sizes: proofs made and accepted for all of them *)
  Definition passes (rng : R) (hi : nat) (sizes : list nat) : Prop :=
    exists n, vec_len checks hi = Ok n /\
    let (g, rng) := r1 rng in let (h, rng) := r2 rng in let (r, rng) := rand rng in
    ipp_loop checks P E S D sh1 sh2 (repeat r n) sizes (repeat (g +m g) n) (repeat (h +m h) n) rng = Ok tt.

  (** The numbers of the command line decide everything (they are read as in C66); the file has the
      thread count in its name, and its rows are a beginning of the table. *)
  Theorem C91_file (rng : R) prog (lo hi : nat) dir rest env pool : hi < 64 -> (N.of_nat lo < 2 ^ 64)%N ->
    let args := prog :: dec (N.of_nat lo) :: dec (N.of_nat hi) :: dir :: rest in
    ((forall threads, ~ named_threads env pool threads) /\ program rng env pool args = (None, Panic)) \/
    exists threads, named_threads env pool threads /\
      snd (program rng env pool args) = main rng lo hi /\
      (fst (program rng env pool args) = None <-> checks = true /\ 32 <= hi) /\
      forall name table, fst (program rng env pool args) = Some (name, table) ->
        name = (dir ++ "/ipp-" ++ dec threads ++ "-threads.csv")%string /\
        exists n, n <= hi + 1 - lo /\ table = scaling_table clock lo n /\
          (main rng lo hi = Ok tt <-> n = hi + 1 - lo) /\
          (forall j, j <= hi + 1 - lo -> (passes rng hi (seq lo j) <-> j <= n)).
  Proof using.
    intros Hhi Hlo args. unfold scaling_program. unfold args at 1 2 3 4.
    assert (Hh : (N.of_nat hi < 2 ^ 64)%N) by (apply N.lt_trans with 64%N; [lia|reflexivity]).
    rewrite C66_scaling by auto. cbn [rbind].
    destruct (num_threads env pool) as [threads|e| |] eqn:Et.
    2, 4: exfalso; unfold num_threads in Et; destruct env as [s|]; [destruct (parse_usize s)|]; discriminate.
    2: { left. split; [|reflexivity]. intros threads H. apply num_threads_named in H. congruence. }
    right. exists threads. split; [now apply num_threads_named|]. cbn [rbind]. rewrite !Nat2N.id.
    unfold scaling_ipp, passes. destruct (r1 rng) as [g rng1]. destruct (r2 rng1) as [h rng2]. destruct (rand rng2) as [r rng3].
    destruct (vec_len checks hi) as [n|e| |] eqn:Ev; cbn [rbind].
    2, 4: exfalso; unfold vec_len, shl_one in Ev; destruct (hi <? 32); [|destruct checks]; discriminate.
    2: { split; [reflexivity|]. split; [|discriminate]. rewrite <- vec_len_panics. tauto. }
    destruct (loop_csv clock checks E S D sh1 sh2 (repeat r n) (seq lo (hi + 1 - lo))) with (k := 0) (a := repeat (g +m g) n) (b := repeat (h +m h) n) (rng := rng3) (l := @nil (list cell)) as [H1 (m & Hm & H2 & H3)].
    { apply Forall_forall. intros i Hi. apply in_seq in Hi. lia. }
    change (3 * 0) with 0 in H1, H2. change (headed []) with (@nil (list cell)) in H1, H2.
    destruct (ipp_loop_csv clock checks P E S D sh1 sh2 (repeat r n) (seq lo (hi + 1 - lo)) 0 (repeat (g +m g) n) (repeat (h +m h) n) rng3 []) as [table x] eqn:El.
    cbn [fst snd] in *. split; [exact H1|].
    split; [split; [discriminate|]; intros H; apply vec_len_panics in H; congruence|].
    intros name t [= <- <-]. split; [reflexivity|]. rewrite seq_length in Hm, H3. exists m. split; [exact Hm|]. split.
    - rewrite H2, firstn_seq by auto. apply headed_table.
    - split.
      + specialize (H3 (hi + 1 - lo) (le_n _)). rewrite firstn_seq in H3 by auto. rewrite H3. lia.
      + intros j Hj. specialize (H3 j Hj). rewrite firstn_seq in H3 by auto. rewrite <- H3. split.
        * intros (n' & [= <-] & Hp). exact Hp.
        * intros Hp. exists n. now split.
  Qed.
End Program.

(** ** No time in the file is negative or undefined *)
Definition at_least_0 (x : spec_float) : Prop :=
  match x with S754_nan => False | S754_zero s | S754_infinity s | S754_finite s _ _ => s = false end.

Section Sign.
  Local Open Scope Z_scope.
  Lemma shr_1_m mrs : 0 <= shr_m mrs -> 0 <= shr_m (shr_1 mrs).
  Proof. destruct mrs as [m r s]. cbn. destruct m as [|[p|p|]|p]; cbn; lia. Qed.
  Lemma iter_shr_m n mrs : 0 <= shr_m mrs -> 0 <= shr_m (iter_pos shr_1 n mrs).
  Proof.
    revert mrs. induction n as [n IH|n IH|]; intros mrs H; cbn [iter_pos]; auto using shr_1_m.
  Qed.
  Lemma shr_fexp_m prec emax m e l : 0 <= m -> 0 <= shr_m (fst (shr_fexp prec emax m e l)).
  Proof.
    intros H. unfold shr_fexp, shr. destruct (_ - e); cbn [fst]; [|apply iter_shr_m|]; destruct l as [|[]]; cbn; auto.
  Qed.
  Lemma round_aux_pos prec emax m e l : 0 <= m -> at_least_0 (binary_round_aux prec emax false m e l).
  Proof.
    intros H. unfold binary_round_aux. pose proof (shr_fexp_m prec emax m e l H) as H1. destruct (shr_fexp prec emax m e l) as [mrs e'].
    cbn [fst] in H1. set (m2 := round_nearest_even _ _). assert (H2 : 0 <= m2).
    { unfold m2, round_nearest_even. destruct (loc_of_shr_record mrs) as [|[]]; auto; try destruct (Z.even _); lia. }
    pose proof (shr_fexp_m prec emax m2 e' loc_Exact H2) as H3. destruct (shr_fexp prec emax m2 e' loc_Exact) as [mrs2 e2]. cbn [fst] in H3.
    destruct (shr_m mrs2); try lia; [reflexivity|]. destruct (e2 <=? emax - prec); reflexivity.
  Qed.
  Lemma normalize_pos prec emax m e : 0 <= m -> at_least_0 (binary_normalize prec emax m e false).
  Proof.
    intros H. destruct m; cbn; auto; [|lia]. unfold binary_round. destruct (shl_align p e _). apply round_aux_pos. lia.
  Qed.
  Lemma add_pos prec emax x y : at_least_0 x -> at_least_0 y -> at_least_0 (SFadd prec emax x y).
  Proof.
    destruct x as [s|s| |s m e]; destruct y as [s'|s'| |s' m' e']; intros Hx Hy; cbn in Hx, Hy; subst; try contradiction; cbn [SFadd Bool.eqb]; try reflexivity.
    apply normalize_pos. cbn [cond_Zopp]. lia.
  Qed.
  Lemma div_pos prec emax x m e : at_least_0 x -> at_least_0 (SFdiv prec emax x (S754_finite false m e)).
  Proof.
    destruct x as [s|s| |s mx ex]; intros Hx; cbn in Hx; subst; try contradiction; cbn [SFdiv]; try reflexivity.
    unfold SFdiv_core_binary. set (e0 := Z.min _ _). set (m0 := match _ with Zpos _ => _ | _ => _ end).
    assert (Hm : 0 <= m0) by (unfold m0; destruct (_ - e0); try lia; rewrite Z.shiftl_mul_pow2 by lia; lia).
    pose proof (Z_div_pos m0 (Zpos m)) as Hq. unfold Z.div in Hq. destruct (Z.div_eucl m0 (Zpos m)) as [q r]. apply round_aux_pos. apply Hq; lia.
  Qed.
End Sign.

Lemma reps_value i : reps i = 1 \/ reps i = 5 \/ reps i = 10 \/ reps i = 20.
Proof.
  destruct (Nat.lt_ge_cases i 14) as [H|H].
  - do 14 (destruct i as [|i]; [unfold reps; cbn [nth]; auto|]). lia.
  - left. unfold reps. now rewrite nth_overflow by (cbn; lia).
Qed.
Lemma average_pos clock k i c : at_least_0 (average (measured clock k (reps i) c)).
Proof.
  unfold average. replace (List.length _) with (reps i) by (unfold measured; now rewrite map_length, seq_length).
  assert (H : at_least_0 (total (measured clock k (reps i) c))).
  { unfold total. generalize (measured clock k (reps i) c). intros l.
    assert (Hx : at_least_0 (S754_zero false)) by reflexivity. revert Hx. generalize (S754_zero false).
    induction l as [|t l IH]; intros x Hx; cbn [map fold_left]; auto. apply IH, add_pos; auto.
    change (f64_of_Z 1000) with (S754_finite false 8796093022208000 (-43)). apply div_pos, normalize_pos. lia. }
  revert H. generalize (total (measured clock k (reps i) c)). intros x H.
  destruct (reps_value i) as [-> | [-> | [-> | ->]]].
  - change (f64_of_Z (Z.of_nat 1)) with (S754_finite false 4503599627370496 (-52)). now apply div_pos.
  - change (f64_of_Z (Z.of_nat 5)) with (S754_finite false 5629499534213120 (-50)). now apply div_pos.
  - change (f64_of_Z (Z.of_nat 10)) with (S754_finite false 5629499534213120 (-49)). now apply div_pos.
  - change (f64_of_Z (Z.of_nat 20)) with (S754_finite false 5629499534213120 (-48)). now apply div_pos.
Qed.

Theorem C91_times clock lo n row x : In row (scaling_table clock lo n) -> In (Real x) row -> at_least_0 x.
Proof.
  intros Hr Hx. destruct n as [|n]; [destruct Hr|]. cbn [scaling_table] in Hr. destruct Hr as [<-|Hr].
  - repeat (destruct Hx as [Hx|Hx]; [discriminate|]). destruct Hx.
  - apply in_map_iff in Hr as (i & <- & _). unfold scaling_row in Hx.
    destruct Hx as [Hx|[Hx|[Hx|[Hx|[]]]]]; [discriminate|injection Hx as <-; apply average_pos..].
Qed.
Print Assumptions C91_file.
Print Assumptions C91_times.

(** Sizes 2 and 4; every measurement takes k milliseconds.  A digest with nonzero challenges, one whose challenges are 0:
    the header is missing then.  The variable for the number of threads is used if it is set. *)
Local Open Scope string_scope.
Definition ex_program D env := scaling_program (fun k => N.of_nat k) true ZPair ex_env toy_stream D (fun l (z : Z) => (rev l, z)) (fun l z => (l, z))
  ex_scalars ex_scalars ex_scalars 2%Z env 8%N ["scaling-ipp"; "1"; "2"; "out"].
Definition shape_of (f : option (string * list (list cell))) : option (string * list string) :=
  match f with None => None | Some (n, rows) => Some (n, map (fun r => match r with Text s :: _ => s | _ => "" end) rows) end.
Example C91_example :
  shape_of (fst (ex_program five_digest None)) = Some ("out/ipp-8-threads.csv", ["size"; "2"; "4"]) /\
  snd (ex_program five_digest None) = Ok tt /\
  ex_program (fun _ => repeat 0%N 32) (Some "3") = (Some ("out/ipp-3-threads.csv", []), Panic) /\
  ex_program five_digest (Some "three") = (None, Panic).
Proof. vm_compute. repeat split; reflexivity. Qed.
(** the direct times of size 2 are 0, 3, .., 57 ms: 28.5 ms on average *)
Example C91_example_average :
  SFeqb (average (measured (fun k => N.of_nat k) 0 20 0)) (SFdiv 53 1024 (f64_of_Z 285) (f64_of_Z 10000)) = false /\
  SFltb (SFdiv 53 1024 (f64_of_Z 284) (f64_of_Z 10000)) (average (measured (fun k => N.of_nat k) 0 20 0)) = true /\
  SFltb (average (measured (fun k => N.of_nat k) 0 20 0)) (SFdiv 53 1024 (f64_of_Z 286) (f64_of_Z 10000)) = true.
Proof. vm_compute. repeat split; reflexivity. Qed.

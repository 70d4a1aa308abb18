(** Property C66: the command lines of the benchmark programs. *)
Require Import List Arith NArith Lia Bool String Ascii Decimal DecimalString DecimalN.
Import ListNotations.
Require Import Verif.Outcome Verif.Rust Verif.Cli.
Local Open Scope string_scope.
Local Open Scope list_scope.

(** a number as it is written in decimal *)
Definition dec (n : N) : string := NilEmpty.string_of_uint (N.to_uint n).
Definition flag (b : bool) : string := if b then "true" else "false".

Fixpoint uval (acc : N) (u : uint) : N :=
  match u with
  | Nil => acc
  | D0 u => uval (10 * acc + 0) u | D1 u => uval (10 * acc + 1) u | D2 u => uval (10 * acc + 2) u
  | D3 u => uval (10 * acc + 3) u | D4 u => uval (10 * acc + 4) u | D5 u => uval (10 * acc + 5) u
  | D6 u => uval (10 * acc + 6) u | D7 u => uval (10 * acc + 7) u | D8 u => uval (10 * acc + 8) u
  | D9 u => uval (10 * acc + 9) u
  end.
Lemma uval_ge u : forall acc, (acc <= uval acc u)%N.
Proof. induction u; intros acc; cbn [uval]; try lia; (etransitivity; [|apply IHu]); lia. Qed.
Lemma uval_pos u : forall p, Npos (Pos.of_uint_acc u p) = uval (Npos p) u.
Proof. induction u; intros p; cbn [Pos.of_uint_acc uval]; try reflexivity; rewrite IHu; f_equal; lia. Qed.
Lemma uval_of_uint u : uval 0 u = N.of_uint u.
Proof.
  induction u; try reflexivity; cbn [uval]; unfold N.of_uint in *; cbn [Pos.of_uint]; rewrite ?uval_pos; try reflexivity.
  exact IHu.
Qed.
Lemma parse_digits_uint u : forall acc, (acc < 2 ^ 64)%N ->
  parse_digits acc (NilEmpty.string_of_uint u) = if (uval acc u <? 2 ^ 64)%N then Some (uval acc u) else None.
Proof.
  induction u; intros acc Ha; cbn [NilEmpty.string_of_uint uval parse_digits].
  { rewrite (proj2 (N.ltb_lt _ _) Ha). reflexivity. }
  all: match goal with |- context [digit ?c] => let d := eval vm_compute in (digit c) in change (digit c) with d end; cbv iota beta zeta.
  all: match goal with IH : forall acc, _ -> _ = _ |- context [uval ?a ?v] => pose proof (uval_ge v a) as Hge; destruct (N.ltb_spec a (2 ^ 64)) as [Hl|Hl];
      [now rewrite IH|]; rewrite (proj2 (N.ltb_ge _ _)) by lia; reflexivity end.
Qed.

Theorem C66_numbers n : parse_usize (dec n) = if (n <? 2 ^ 64)%N then Some n else None.
Proof.
  unfold parse_usize, dec.
  assert (Hu : N.to_uint n <> Nil).
  { intros H. pose proof (Unsigned.of_to n) as Ho. rewrite H in Ho. destruct n; [discriminate|]. discriminate. }
  assert (Hs : match NilEmpty.string_of_uint (N.to_uint n) with
     | "" => NilEmpty.string_of_uint (N.to_uint n)
     | String c t => if (c =? "+")%char then t else NilEmpty.string_of_uint (N.to_uint n)
     end = NilEmpty.string_of_uint (N.to_uint n)).
  { destruct (N.to_uint n); reflexivity. }
  rewrite Hs. destruct (NilEmpty.string_of_uint (N.to_uint n)) eqn:Es; [destruct (N.to_uint n); try discriminate; contradiction|].
  rewrite <- Es, parse_digits_uint, uval_of_uint, Unsigned.of_to by reflexivity. reflexivity.
Qed.

(** the strings read as a number: at least one digit, leading zeros and one '+' allowed *)
Definition numeral (s : string) (n : N) : Prop :=
  exists u : uint, u <> Nil /\ (s = NilEmpty.string_of_uint u \/ s = String "+" (NilEmpty.string_of_uint u)) /\ N.of_uint u = n.

Lemma digit_uint c d : digit c = Some d -> exists D : uint -> uint,
  (forall u, NilEmpty.string_of_uint (D u) = String c (NilEmpty.string_of_uint u)) /\ forall u, D u <> Nil.
Proof.
  intros H. pose proof (ascii_N_embedding c) as Hc. unfold digit in H. remember (N_of_ascii c) as n eqn:En. clear En.
  destruct (N.leb_spec 48 n) as [H1|]; [|discriminate]. destruct (N.leb_spec n 57) as [H2|]; [|discriminate]. clear H.
  assert (Hn : (n = 48 \/ n = 49 \/ n = 50 \/ n = 51 \/ n = 52 \/ n = 53 \/ n = 54 \/ n = 55 \/ n = 56 \/ n = 57)%N) by lia.
  repeat destruct Hn as [Hn|Hn]; subst n; vm_compute in Hc; subst c;
    [exists D0|exists D1|exists D2|exists D3|exists D4|exists D5|exists D6|exists D7|exists D8|exists D9]; split; intros; try reflexivity; discriminate.
Qed.
Lemma parse_digits_inv s : forall acc n, parse_digits acc s = Some n -> exists u, s = NilEmpty.string_of_uint u.
Proof.
  induction s as [|c s IH]; intros acc n H; [now exists Nil|]. cbn [parse_digits] in H.
  destruct (digit c) as [d|] eqn:Ed; [|discriminate]. cbv zeta in H. destruct (_ <? _)%N; [|discriminate].
  destruct (IH _ _ H) as [u ->]. destruct (digit_uint c d Ed) as (D & HD & _). exists (D u). now rewrite HD.
Qed.

(** a string is read as [n] exactly if it is a numeral of [n] and [n] fits into 64 bits *)
Theorem C66_numerals s n : parse_usize s = Some n <-> numeral s n /\ (n < 2 ^ 64)%N.
Proof.
  assert (Hbody : forall t, match t with EmptyString => None | _ => parse_digits 0 t end = Some n <->
    exists u, u <> Nil /\ t = NilEmpty.string_of_uint u /\ N.of_uint u = n /\ (n < 2 ^ 64)%N).
  { intros t. split.
    - intros H. destruct t as [|c t]; [discriminate|]. destruct (parse_digits_inv _ _ _ H) as [u Eu]. exists u.
      rewrite Eu, parse_digits_uint, uval_of_uint in H by reflexivity.
      destruct (N.ltb_spec (N.of_uint u) (2 ^ 64)) as [Hl|]; [|discriminate]. injection H as <-.
      repeat split; auto. intros ->. discriminate.
    - intros (u & Hu & -> & <- & Hl). destruct (NilEmpty.string_of_uint u) as [|c t] eqn:Es; [destruct u; try discriminate; contradiction|].
      rewrite <- Es, parse_digits_uint, uval_of_uint, (proj2 (N.ltb_lt _ _) Hl) by reflexivity. reflexivity. }
  unfold parse_usize, numeral. destruct s as [|c s].
  - split; [discriminate|]. intros [(u & Hu & [E|E] & _) _]; [|discriminate]. destruct u; discriminate || contradiction.
  - destruct (Ascii.eqb_spec c "+") as [->|Hc]; [rewrite (Hbody s)|etransitivity; [apply (Hbody (String c s))|]].
    + split.
      * intros (u & Hu & -> & En & Hl). split; [|exact Hl]. exists u. auto.
      * intros [(u & Hu & [E|E] & En) Hl].
        { exfalso. destruct u; discriminate E || contradiction. }
        injection E as ->. exists u. auto.
    + split.
      * intros (u & Hu & E & En & Hl). split; [|exact Hl]. exists u. auto.
      * intros [(u & Hu & [E|E] & En) Hl]; [exists u; auto|]. congruence.
Qed.

Lemma parse_small n : (n < 2 ^ 64)%N -> parse_usize (dec n) = Some n.
Proof. intros H. rewrite C66_numbers, (proj2 (N.ltb_lt _ _) H). reflexivity. Qed.

(** a written number is none of the words with a meaning *)
Lemma to_uint_nil n : N.to_uint n <> Nil.
Proof. intros H. pose proof (Unsigned.of_to n) as Ho. rewrite H in Ho. destruct n; discriminate. Qed.
Lemma dec_digit n : exists c s, dec n = String c s /\ digit c <> None.
Proof.
  unfold dec. pose proof (to_uint_nil n) as Hn. destruct (N.to_uint n); [contradiction|..];
    cbn [NilEmpty.string_of_uint]; do 2 eexists; (split; [reflexivity|vm_compute; discriminate]).
Qed.
Lemma dec_not_minus n s : String.eqb (dec n) (String "-" s) = false.
Proof.
  destruct (dec_digit n) as (c & t & -> & Hd). cbn [String.eqb]. destruct (Ascii.eqb_spec c "-") as [->|]; [|reflexivity].
  vm_compute in Hd. now contradiction Hd.
Qed.

(** ** help *)
(** an argument list that asks for help: no argument, or the first one is -h or --help; cargo may append "--bench" *)
Definition asks_help (args : list string) : Prop :=
  exists prog rest, prog <> "--bench" /\ (args = [prog] \/ args = [prog; "--bench"] \/
    (rest <> [] /\ last rest "" <> "--bench" /\ (args = prog :: rest \/ args = prog :: rest ++ ["--bench"]) /\ (hd "" rest = "-h" \/ hd "" rest = "--help"))).

Lemma drop_bench_plain args l : last_opt args = Some l -> l <> "--bench" -> drop_bench args = Ok args.
Proof. intros H Hl. unfold drop_bench. rewrite H. cbn [runwrap rbind]. apply String.eqb_neq in Hl. now rewrite Hl. Qed.
Lemma last_opt_app {A} (l : list A) x : last_opt (l ++ [x]) = Some x.
Proof. induction l as [|y l IH]; [reflexivity|]. change ((y :: l) ++ [x]) with (y :: (l ++ [x])). destruct (l ++ [x]) eqn:E; [now destruct l|exact IH]. Qed.
Lemma drop_bench_drop args : drop_bench (args ++ ["--bench"]) = Ok args.
Proof. unfold drop_bench. rewrite last_opt_app. cbn [runwrap rbind]. rewrite String.eqb_refl, removelast_last. reflexivity. Qed.
Lemma last_opt_last {A} (l : list A) d : l <> [] -> last_opt l = Some (last l d).
Proof.
  induction l as [|x l IH]; [contradiction|]. intros _. destruct l as [|y l]; [reflexivity|].
  change (last_opt (x :: y :: l)) with (last_opt (y :: l)). change (last (x :: y :: l) d) with (last (y :: l) d). apply IH. discriminate.
Qed.

Lemma help_prefix args : asks_help args -> exists args', drop_bench args = Ok args' /\ wants_help args' = Ok true.
Proof.
  intros (prog & rest & Hp & [->|[->|(Hr & Hlast & Hargs & Hh)]]).
  - exists [prog]. split; [now apply (drop_bench_plain [prog] prog)|reflexivity].
  - exists [prog]. split; [exact (drop_bench_drop [prog])|reflexivity].
  - exists (prog :: rest). split.
    + destruct Hargs as [->| ->]; [|exact (drop_bench_drop (prog :: rest))].
      apply (drop_bench_plain _ (last rest "")); auto. destruct rest; [contradiction|].
      change (last_opt (prog :: s :: rest)) with (last_opt (s :: rest)). now apply last_opt_last.
    + destruct rest as [|r rest]; [contradiction|]. unfold wants_help. cbn [List.length Nat.ltb Nat.leb index nth_error runwrap rbind].
      cbn [hd] in Hh. destruct Hh as [-> | ->]; reflexivity.
Qed.

Theorem C66_help args : asks_help args -> g16_bench_args args = Ok None /\ pc_bench_args args = Ok None.
Proof.
  intros H. destruct (help_prefix args H) as (args' & H1 & H2). unfold g16_bench_args, pc_bench_args. rewrite H1. cbn [rbind].
  rewrite H2. split; reflexivity.
Qed.

(** the example prints its help text and then panics *)
Theorem C66_scaling_help_refuted prog rest : scaling_args [prog] = Panic /\
  scaling_args (prog :: "-h" :: rest) = Panic /\ scaling_args (prog :: "--help" :: rest) = Panic.
Proof. repeat split. Qed.

(** ** arguments that follow the usage text *)
Lemma wants_help_number prog n rest : wants_help (prog :: dec n :: rest) = Ok false.
Proof.
  unfold wants_help. cbn [List.length Nat.ltb Nat.leb index nth_error runwrap rbind].
  now rewrite !dec_not_minus.
Qed.

(** the command line with and without cargo's "--bench" *)
Definition run_as {A} (f : list string -> res A) (args : list string) (out : res A) : Prop :=
  f args = out /\ f (args ++ ["--bench"]) = out.

Theorem C66_poly_commit prog a b : (a < 2 ^ 64)%N -> (b < 2 ^ 64)%N ->
  run_as pc_bench_args [prog; dec a; dec b] (Ok (Some (a, b))).
Proof.
  intros Ha Hb. unfold run_as, pc_bench_args. rewrite drop_bench_drop.
  rewrite (drop_bench_plain _ (dec b)); [|reflexivity|intros H; pose proof (dec_not_minus b "-bench") as Hd; rewrite H in Hd; discriminate].
  cbn [rbind]. rewrite wants_help_number. cbn [rbind int_arg index nth_error runwrap]. unfold int_arg.
  cbn [index nth_error runwrap rbind]. rewrite !parse_small by auto. split; reflexivity.
Qed.

Theorem C66_scaling prog a b dir rest : (a < 2 ^ 64)%N -> (b < 2 ^ 64)%N ->
  scaling_args (prog :: dec a :: dec b :: dir :: rest) = Ok (a, b, dir).
Proof.
  intros Ha Hb. unfold scaling_args. rewrite wants_help_number. unfold int_arg. cbn [index nth_error runwrap rbind].
  rewrite !parse_small by auto. reflexivity.
Qed.

(** <num_trials> <num_proofs> [<bench_rec> [<generate_all_proofs> [<monolithic_proof>]]], flags default to true *)
Definition g16_line prog a b (flags : list bool) : list string := prog :: dec a :: dec b :: map flag flags.
Definition flag_or_true (flags : list bool) (i : nat) : bool := nth i flags true.

Lemma flag_not_bench f : flag f <> "--bench".
Proof. destruct f; discriminate. Qed.
Lemma flag_arg_ok prog a b flags i : flag_arg (g16_line prog a b flags) (3 + i) = Ok (flag_or_true flags i).
Proof.
  unfold flag_arg, g16_line, flag_or_true. cbn [Nat.add nth_error]. revert i.
  induction flags as [|f flags IH]; intros [|i]; try reflexivity.
  - cbn [map nth_error nth]. now destruct f.
  - apply IH.
Qed.

(** what the program gets: the fourth flag argument is used twice *)
Theorem C66_groth16_partial prog a b flags : (a < 2 ^ 64)%N -> (b < 2 ^ 64)%N ->
  run_as g16_bench_args (g16_line prog a b flags)
    (Ok (Some (a, b, flag_or_true flags 0, flag_or_true flags 1, flag_or_true flags 1))).
Proof.
  intros Ha Hb. unfold run_as, g16_bench_args. rewrite drop_bench_drop.
  assert (Hd : drop_bench (g16_line prog a b flags) = Ok (g16_line prog a b flags)).
  { unfold g16_line. destruct flags as [|f flags].
    - apply (drop_bench_plain _ (dec b)); [reflexivity|]. intros H. pose proof (dec_not_minus b "-bench") as Hd. rewrite H in Hd. discriminate.
    - apply (drop_bench_plain _ (flag (last (f :: flags) true))); [|apply flag_not_bench].
      cbn [map]. change (last_opt (flag f :: map flag flags) = Some (flag (last (f :: flags) true))). revert f.
      induction flags as [|g flags IH]; intros f; [reflexivity|].
      change (last (f :: g :: flags) true) with (last (g :: flags) true). rewrite <- (IH g). reflexivity. }
  assert (Hw : wants_help (g16_line prog a b flags) = Ok false) by apply wants_help_number.
  pose proof (flag_arg_ok prog a b flags 0) as F0. pose proof (flag_arg_ok prog a b flags 1) as F1. cbn [Nat.add] in F0, F1.
  rewrite Hd. cbn [rbind]. rewrite Hw. cbn [rbind]. rewrite F0. cbn [rbind]. rewrite F1. cbn [rbind].
  unfold int_arg, g16_line. cbn [index nth_error runwrap rbind].
  rewrite !parse_small by auto. split; reflexivity.
Qed.

(** "<monolithic_proof>" is ignored *)
Theorem C66_monolithic_refuted prog a b rec all mono : (a < 2 ^ 64)%N -> (b < 2 ^ 64)%N -> mono <> all ->
  g16_bench_args (g16_line prog a b [rec; all; mono]) <> Ok (Some (a, b, rec, all, mono)).
Proof.
  intros Ha Hb Hne H. destruct (C66_groth16_partial prog a b [rec; all; mono] Ha Hb) as [E _]. rewrite E in H.
  unfold flag_or_true in H. cbn [nth] in H. congruence.
Qed.

(** a missing second argument makes both benchmarks panic instead of printing their usage *)
Theorem C66_one_argument_refuted prog a : (a < 2 ^ 64)%N ->
  run_as g16_bench_args [prog; dec a] Panic /\ run_as pc_bench_args [prog; dec a] Panic.
Proof.
  intros Ha. unfold run_as, g16_bench_args, pc_bench_args. rewrite drop_bench_drop.
  rewrite (drop_bench_plain _ (dec a)); [|reflexivity|intros H; pose proof (dec_not_minus a "-bench") as Hd; rewrite H in Hd; discriminate].
  cbn [rbind]. rewrite wants_help_number. cbn [rbind]. unfold int_arg, flag_arg. cbn [index nth_error runwrap rbind].
  rewrite !parse_small by auto. cbn. repeat split; reflexivity.
Qed.

(** everything else in the place of a number is a panic, never a default value *)
Theorem C66_not_a_number prog x y rest : x <> "-h" -> x <> "--help" -> last (x :: y :: rest) "" <> "--bench" ->
  ((forall n, numeral x n -> (2 ^ 64 <= n)%N) \/ (forall n, numeral y n -> (2 ^ 64 <= n)%N)) ->
  run_as g16_bench_args (prog :: x :: y :: rest) Panic /\ run_as pc_bench_args (prog :: x :: y :: rest) Panic /\
  scaling_args (prog :: x :: y :: rest) = Panic.
Proof.
  intros H1 H2 Hlast Hbad.
  assert (Hnone : forall s, (forall n, numeral s n -> (2 ^ 64 <= n)%N) -> parse_usize s = None).
  { intros s Hs. destruct (parse_usize s) as [n|] eqn:E; [|reflexivity]. apply C66_numerals in E. destruct E as [En Hl].
    pose proof (Hs n En). lia. }
  assert (Hw : wants_help (prog :: x :: y :: rest) = Ok false).
  { unfold wants_help. cbn [List.length Nat.ltb Nat.leb index nth_error runwrap rbind].
    apply String.eqb_neq in H1, H2. now rewrite H1, H2. }
  assert (Hd : drop_bench (prog :: x :: y :: rest) = Ok (prog :: x :: y :: rest)).
  { apply (drop_bench_plain _ (last (x :: y :: rest) "")); [|exact Hlast].
    change (last_opt (prog :: x :: y :: rest)) with (last_opt (x :: y :: rest)). now apply last_opt_last. }
  assert (Hi : forall (A : Type) (k : N -> N -> res A),
     rbind (int_arg (prog :: x :: y :: rest) 1) (fun a => rbind (int_arg (prog :: x :: y :: rest) 2) (k a)) = Panic).
  { intros A k. unfold int_arg. cbn [index nth_error runwrap rbind]. destruct Hbad as [Hx|Hy].
    - rewrite (Hnone x Hx). reflexivity.
    - destruct (parse_usize x); [|reflexivity]. cbn [runwrap rbind]. rewrite (Hnone y Hy). reflexivity. }
  unfold run_as, g16_bench_args, pc_bench_args, scaling_args. rewrite drop_bench_drop, Hd. cbn [rbind]. rewrite Hw. cbn [rbind].
  rewrite !Hi. repeat split.
  all: unfold flag_arg; repeat (destruct (String.eqb _ _); cbn [rbind]); rewrite ?Hi; reflexivity.
Qed.
Print Assumptions C66_numbers.
Print Assumptions C66_numerals.
Print Assumptions C66_not_a_number.
Print Assumptions C66_help.
Print Assumptions C66_scaling_help_refuted.
Print Assumptions C66_poly_commit.
Print Assumptions C66_scaling.
Print Assumptions C66_groth16_partial.
Print Assumptions C66_monolithic_refuted.
Print Assumptions C66_one_argument_refuted.

Example C66_example :
  dec 1024 = "1024" /\ parse_usize "+7" = Some 7%N /\ parse_usize "-7" = None /\ parse_usize "" = None /\ parse_usize "007" = Some 7%N /\
  pc_bench_args ["pc"; ""; "8"] = Panic /\ parse_usize "18446744073709551616" = None /\
  pc_bench_args ["pc"; "3"; "8"; "--bench"] = Ok (Some (3, 8)%N) /\
  g16_bench_args ["g"; "1"; "64"; "false"; "true"; "false"] = Ok (Some (1, 64, false, true, true)%N) /\
  g16_bench_args ["g"; "1"; "64"; "no"] = Panic /\
  scaling_args ["s"; "4"; "10"; "/tmp"] = Ok (4, 10, "/tmp")%N /\
  asks_help ["g"; "-h"; "--bench"].
Proof.
  repeat split; try reflexivity. exists "g", ["-h"]. split; [discriminate|]. right. right. repeat split; auto; discriminate.
Qed.

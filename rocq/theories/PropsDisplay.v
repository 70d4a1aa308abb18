(** C92: what the text of an error tells. *)
Require Import List Arith NArith ZArith Lia Bool String Ascii Decimal DecimalString DecimalN.
Import ListNotations.
Require Import Verif.Outcome Verif.Algebra Verif.Zp Verif.Rust Verif.InnerProducts Verif.Commitments Verif.Gipa Verif.Cli Verif.Report Verif.Display
  Verif.PropsBase Verif.PropsCli.
Local Open Scope string_scope.

(** the two numbers of an error about lengths *)
Definition lengths_of (e : error) : option (nat * nat) :=
  match e with IPMessageLengthInvalid l r | ArgMessageLengthInvalid l r => Some (l, r) | ArgInnerProductInvalid => None end.

Fixpoint has_comma (s : string) : bool := match s with EmptyString => false | String c s => Ascii.eqb c "," || has_comma s end.
Lemma digits_no_comma u : has_comma (NilEmpty.string_of_uint u) = false.
Proof. induction u; cbn; auto. Qed.
Lemma split_comma a b s t : has_comma a = false -> has_comma b = false -> a ++ String "," s = b ++ String "," t -> a = b /\ s = t.
Proof.
  revert b. induction a as [|c a IH]; intros [|d b]; cbn; intros Ha Hb H.
  - injection H as ->. auto.
  - injection H as <- _. discriminate.
  - injection H as -> _. discriminate.
  - injection H as -> H. apply orb_false_iff in Ha as [_ Ha]. apply orb_false_iff in Hb as [_ Hb].
    destruct (IH b Ha Hb H) as [-> ->]. auto.
Qed.
Lemma dec_inj n m : dec n = dec m -> n = m.
Proof.
  unfold dec. intros H. apply (f_equal NilEmpty.uint_of_string) in H. rewrite !NilEmpty.usu in H. injection H as H.
  apply (f_equal N.of_uint) in H. now rewrite !DecimalN.Unsigned.of_to in H.
Qed.
Lemma strip_prefix p a b : p ++ a = p ++ b -> a = b.
Proof. induction p as [|c p IH]; cbn; intros H; [auto|]. injection H as H. auto. Qed.

(** The text of an error about lengths is the fixed beginning and both numbers in decimal; the numbers can be read off it,
    and it is never the text of the other error. *)
Theorem C92_text_partial e :
  display e = match lengths_of e with
              | Some (l, r) => "left length, right length: " ++ dec (N.of_nat l) ++ ", " ++ dec (N.of_nat r)
              | None => "inner product not sound"
              end.
Proof. now destruct e. Qed.
Theorem C92_lengths_partial e e' : display e = display e' <-> lengths_of e = lengths_of e'.
Proof.
  rewrite !C92_text_partial. split; [|now intros ->].
  destruct (lengths_of e) as [[l r]|]; destruct (lengths_of e') as [[l' r']|]; intros H; try discriminate; [|reflexivity].
  apply strip_prefix in H. cbn [String.append] in H. apply split_comma in H as [H1 H2]; try apply digits_no_comma.
  injection H2 as H2. apply dec_inj in H1, H2. apply Nat2N.inj in H1, H2. congruence.
Qed.

(** Which of the two crates refused is not told: a commitment to vectors of unequal length and an argument over keys of
    unequal length give the same text. *)
Theorem C92_origin_refuted l r : display (IPMessageLengthInvalid l r) = display (ArgMessageLengthInvalid l r) /\
  IPMessageLengthInvalid l r <> ArgMessageLengthInvalid l r.
Proof. split; [reflexivity|discriminate]. Qed.
Print Assumptions C92_text_partial.
Print Assumptions C92_lengths_partial.
Print Assumptions C92_origin_refuted.

Example C92_example :
  (match pairing_ip ZPair ex_env (zl [2; 3; 4]%Z) (zl [7; 8; 9; 10; 11; 12; 13; 14; 15; 16; 17; 18]%Z) with Err e => display e | _ => "" end)
    = "left length, right length: 3, 12" /\
  display (ArgMessageLengthInvalid 31 2) = "left length, right length: 31, 2" /\
  display (ArgMessageLengthInvalid 3 12) <> display (ArgMessageLengthInvalid 31 2).
Proof. repeat split; try (vm_compute; reflexivity). intros H. vm_compute in H. discriminate. Qed.

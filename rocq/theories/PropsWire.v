(** Property C67: serialized proofs. *)
Require Import List Arith NArith ZArith Lia Bool.
Import ListNotations.
Require Import Verif.Outcome Verif.Algebra Verif.Zp Verif.Rust Verif.InnerProducts Verif.Commitments
  Verif.Gipa Verif.Tipa Verif.Ssm Verif.Wire Verif.Spec Verif.ListFacts Verif.RustFacts Verif.SerFacts Verif.PropsGipa Verif.PropsTipa Verif.PropsSsm.

(** ** Specification *)

(** reading what was written gives the value back and leaves the rest of the input *)
Definition roundtrip {A} (c : codec A) (dom : A -> Prop) : Prop :=
  forall a rest, dom a -> dec c (enc c a ++ rest) = Some (a, rest).
(** only the bytes that were written for a value are read as that value *)
Definition is_byte (x : N) : Prop := (x < 256)%N.
Definition canonical {A} (c : codec A) : Prop :=
  forall i a rest, Forall is_byte i -> dec c i = Some (a, rest) -> i = enc c a ++ rest.
(** all encodings have the same length *)
Definition fixed_size {A} (c : codec A) (n : nat) : Prop := forall a, length (enc c a) = n.

Definition always {A} : A -> Prop := fun _ => True.
Definition both {A B} (f : A -> Prop) (g : B -> Prop) (p : A * B) : Prop := f (fst p) /\ g (snd p).
Definition vec_dom {A} (f : A -> Prop) (l : list A) : Prop := u64_bound (length l) /\ Forall f l.

(** ** Combinators *)
Lemma roundtrip_weaken {A} (c : codec A) (f g : A -> Prop) :
  (forall a, g a -> f a) -> roundtrip c f -> roundtrip c g.
Proof. intros H R a rest G. apply R. auto. Qed.

Lemma roundtrip_iso {A B} (f : A -> B) (g : B -> A) (c : codec A) (dom : A -> Prop) :
  (forall b, f (g b) = b) -> roundtrip c dom -> roundtrip (codec_iso f g c) (fun b => dom (g b)).
Proof. intros H R b rest D. cbn. rewrite R by exact D. cbn. now rewrite H. Qed.

Lemma canonical_iso {A B} (f : A -> B) (g : B -> A) (c : codec A) :
  (forall a, g (f a) = a) -> canonical c -> canonical (codec_iso f g c).
Proof.
  intros H C i b rest Hi E. cbn in *. destruct (dec c i) as [[a r]|] eqn:Ed; [|discriminate].
  injection E as <- <-. rewrite H. now apply C.
Qed.

Lemma fixed_iso {A B} (f : A -> B) (g : B -> A) (c : codec A) n : fixed_size c n -> fixed_size (codec_iso f g c) n.
Proof. intros F b. apply F. Qed.

Lemma roundtrip_pair {A B} (ca : codec A) (cb : codec B) f g :
  roundtrip ca f -> roundtrip cb g -> roundtrip (codec_pair ca cb) (both f g).
Proof.
  intros RA RB [a b] rest [Ha Hb]. cbn in *. rewrite <- app_assoc, RA by exact Ha. now rewrite RB by exact Hb.
Qed.

Lemma canonical_pair {A B} (ca : codec A) (cb : codec B) :
  canonical ca -> canonical cb -> canonical (codec_pair ca cb).
Proof.
  intros CA CB i [a b] rest Hi E. cbn in *.
  destruct (dec ca i) as [[a' r]|] eqn:Ea; [|discriminate].
  destruct (dec cb r) as [[b' r']|] eqn:Eb; [|discriminate]. injection E as -> -> ->.
  apply CA in Ea; [|exact Hi]. subst i. apply Forall_app in Hi as [_ Hr].
  apply CB in Eb; [|exact Hr]. subst r. now rewrite app_assoc.
Qed.

Lemma fixed_pair {A B} (ca : codec A) (cb : codec B) n m :
  fixed_size ca n -> fixed_size cb m -> fixed_size (codec_pair ca cb) (n + m).
Proof. intros FA FB [a b]. cbn. now rewrite app_length, FA, FB. Qed.

Lemma from_be_bytes_snoc b x : from_be_bytes (b ++ [x]) = (from_be_bytes b * 256 + x)%N.
Proof. unfold from_be_bytes. now rewrite fold_left_app. Qed.

Lemma from_be_be_bytes k : forall n, (n < 256 ^ N.of_nat k)%N -> from_be_bytes (be_bytes k n) = n.
Proof.
  induction k as [|k IH]; intros n H.
  - cbn in *. lia.
  - cbn [be_bytes]. rewrite from_be_bytes_snoc. rewrite Nat2N.inj_succ, N.pow_succ_r' in H.
    rewrite IH by (apply N.div_lt_upper_bound; lia). rewrite (N.div_mod n 256) at 3 by lia. lia.
Qed.

Lemma be_from_be_bytes : forall b, Forall is_byte b ->
  be_bytes (length b) (from_be_bytes b) = b /\ (from_be_bytes b < 256 ^ N.of_nat (length b))%N.
Proof.
  intros b. induction b as [|x b IH] using rev_ind; intros H; [split; [reflexivity | cbn; lia]|].
  apply Forall_app in H as [Hb Hx]. inversion Hx as [|? ? Hx' _]. unfold is_byte in Hx'.
  destruct (IH Hb) as [E L]. rewrite app_length, Nat.add_1_r, from_be_bytes_snoc. cbn [be_bytes].
  replace ((from_be_bytes b * 256 + x) / 256)%N with (from_be_bytes b)
    by (rewrite N.div_add_l, N.div_small by lia; lia).
  replace ((from_be_bytes b * 256 + x) mod 256)%N with x
    by (rewrite N.add_comm, N.mod_add, N.mod_small by lia; reflexivity).
  rewrite E. split; [reflexivity|]. rewrite Nat2N.inj_succ, N.pow_succ_r'. nia.
Qed.

Lemma dec_u64_enc n rest : u64_bound n -> dec_u64 (u64_le n ++ rest) = Some (N.of_nat n, rest).
Proof.
  intros H. unfold dec_u64. rewrite app_length, u64_le_length.
  replace (8 + length rest <? 8) with false by (symmetry; apply Nat.ltb_ge; lia).
  rewrite firstn_app, skipn_app, u64_le_length. cbn [Nat.sub]. rewrite firstn_O, skipn_O, app_nil_r.
  rewrite firstn_all2, skipn_all2 by (rewrite u64_le_length; lia). cbn [app].
  unfold u64_le. rewrite rev_involutive, from_be_be_bytes; [reflexivity|]. exact H.
Qed.

Lemma Forall_rev' {A} (f : A -> Prop) l : Forall f l -> Forall f (rev l).
Proof. rewrite !Forall_forall. intros H x Hx. apply H. now apply in_rev. Qed.

Lemma dec_u64_canonical i n rest : Forall is_byte i -> dec_u64 i = Some (n, rest) ->
  i = u64_le (N.to_nat n) ++ rest /\ (n < 2 ^ 64)%N.
Proof.
  intros Hi. unfold dec_u64. destruct (Nat.ltb_spec (length i) 8) as [|Hl]; [discriminate|].
  intros E0. set (b := rev (firstn 8 i)) in *.
  assert (En : n = from_be_bytes b) by congruence. assert (Er : rest = skipn 8 i) by congruence. clear E0. subst n rest.
  assert (Hlen : length b = 8) by (unfold b; rewrite rev_length, firstn_length; lia).
  assert (Hb : Forall is_byte b).
  { unfold b. apply Forall_rev'. rewrite <- (firstn_skipn 8 i) in Hi. now apply Forall_app in Hi. }
  destruct (be_from_be_bytes b Hb) as [E L]. rewrite Hlen in E, L. split; [|exact L].
  unfold u64_le. rewrite N2Nat.id, E. unfold b. rewrite rev_involutive. symmetry. apply firstn_skipn.
Qed.

Lemma dec_n_enc {A} (c : codec A) f (RC : roundtrip c f) l : forall rest, Forall f l ->
  dec_n c (length l) (flat_map (enc c) l ++ rest) = Some (l, rest).
Proof.
  induction l as [|a l IH]; intros rest H; [reflexivity|].
  inversion H as [|? ? Ha Hl]; subst. cbn. rewrite <- app_assoc, RC by exact Ha. now rewrite IH.
Qed.

Lemma dec_n_canonical {A} (c : codec A) (CC : canonical c) n : forall i l rest, Forall is_byte i ->
  dec_n c n i = Some (l, rest) -> length l = n /\ i = flat_map (enc c) l ++ rest.
Proof.
  induction n as [|n IH]; intros i l rest Hi E; cbn in E.
  - injection E as <- <-. auto.
  - destruct (dec c i) as [[a r]|] eqn:Ea; [|discriminate].
    apply CC in Ea; [|exact Hi]. subst i. apply Forall_app in Hi as [_ Hr].
    destruct (dec_n c n r) as [[l' r']|] eqn:El; [|discriminate]. injection E as <- <-.
    apply IH in El as [El ->]; [|exact Hr]. cbn. rewrite <- app_assoc. auto.
Qed.

Lemma roundtrip_vec {A} (c : codec A) f : roundtrip c f -> roundtrip (codec_vec c) (vec_dom f).
Proof.
  intros RC l rest [Hl Hf]. cbn [enc dec codec_vec]. unfold ser_list. rewrite <- app_assoc, dec_u64_enc by exact Hl.
  rewrite Nat2N.id. now apply (dec_n_enc c f).
Qed.

Lemma canonical_vec {A} (c : codec A) : canonical c -> canonical (codec_vec c).
Proof.
  intros CC i l rest Hi E. cbn [dec codec_vec] in E. destruct (dec_u64 i) as [[n r]|] eqn:En; [|discriminate].
  apply dec_u64_canonical in En as [-> _]; [|exact Hi]. apply Forall_app in Hi as [_ Hr].
  apply dec_n_canonical in E as [<- ->]; [|exact CC|exact Hr]. cbn [enc codec_vec]. unfold ser_list. now rewrite <- app_assoc.
Qed.

Lemma size_vec {A} (c : codec A) n (l : list A) : fixed_size c n -> length (enc (codec_vec c) l) = 8 + length l * n.
Proof.
  intros F. cbn [enc codec_vec]. unfold ser_list. rewrite app_length, u64_le_length. f_equal.
  induction l as [|a l IH]; cbn; [reflexivity|]. rewrite app_length, F, IH. reflexivity.
Qed.

(** ** C67 *)
Section C67.
  Context {K : field} {MA MB : module K} {OA OB OT : carrier K}.
  Variables (cMA : codec MA) (cMB : codec MB) (cOA : codec OA) (cOB : codec OB) (cOT : codec OT).
  Notation proof := (gipa_proof MA MB OA OB OT).

  (** the proofs that can be written: vectors shorter than 2^64, elements in the domain of their codec *)
  Definition com3_dom (dA : OA -> Prop) (dB : OB -> Prop) (dT : OT -> Prop) (c : com3 OA OB OT) : Prop :=
    let '(a, b, t) := c in dA a /\ dB b /\ dT t.
  Definition gipa_dom dA dB dT (p : proof) : Prop :=
    u64_bound (length (gp_steps p)) /\
    forall c1 c2, In (c1, c2) (gp_steps p) -> com3_dom dA dB dT c1 /\ com3_dom dA dB dT c2.

  Theorem C67_gipa_roundtrip dA dB dT (p : proof) rest :
    roundtrip cMA always -> roundtrip cMB always -> roundtrip cOA dA -> roundtrip cOB dB -> roundtrip cOT dT ->
    gipa_dom dA dB dT p ->
    dec (codec_gipa cMA cMB cOA cOB cOT) (enc (codec_gipa cMA cMB cOA cOB cOT) p ++ rest) = Some (p, rest).
  Proof.
    intros RA RB ROA ROB ROT [Hl Hs].
    assert (R3 : roundtrip (codec_com3 cOA cOB cOT) (both (both dA dB) dT)) by (repeat apply roundtrip_pair; assumption).
    unfold codec_gipa.
    eapply (roundtrip_iso _ _ _ (both (vec_dom (both (both (both dA dB) dT) (both (both dA dB) dT))) (both always always))).
    - now intros [].
    - repeat apply roundtrip_pair; try assumption. apply roundtrip_vec. now apply roundtrip_pair.
    - split; [|split; exact I]. split; [exact Hl|]. apply Forall_forall. intros [[[a b] t] [[a' b'] t']] H.
      apply Hs in H as [[? []] [? []]]. repeat split; assumption.
  Qed.

  Theorem C67_gipa_canonical (p : proof) i rest :
    canonical cMA -> canonical cMB -> canonical cOA -> canonical cOB -> canonical cOT ->
    Forall is_byte i -> dec (codec_gipa cMA cMB cOA cOB cOT) i = Some (p, rest) ->
    i = enc (codec_gipa cMA cMB cOA cOB cOT) p ++ rest.
  Proof.
    intros. cut (canonical (codec_gipa cMA cMB cOA cOB cOT)); [intros C; now apply C|].
    apply canonical_iso; [now intros []|].
    repeat (apply canonical_pair || apply canonical_vec); assumption.
  Qed.

  (** proof size in bytes: logarithmic in the length of the messages *)
  Theorem C67_gipa_size (p : proof) sA sB oA oB oT :
    fixed_size cMA sA -> fixed_size cMB sB -> fixed_size cOA oA -> fixed_size cOB oB -> fixed_size cOT oT ->
    length (enc (codec_gipa cMA cMB cOA cOB cOT) p) = 8 + length (gp_steps p) * (2 * (oA + oB + oT)) + sA + sB.
  Proof.
    intros FA FB FOA FOB FOT. destruct p as [steps [a b]].
    change (length (enc (codec_vec (codec_pair (codec_com3 cOA cOB cOT) (codec_com3 cOA cOB cOT))) steps
      ++ enc cMA a ++ enc cMB b) = 8 + length steps * (2 * (oA + oB + oT)) + sA + sB).
    rewrite !app_length, FA, FB.
    assert (F3 : fixed_size (codec_com3 cOA cOB cOT) (oA + oB + oT)) by (repeat apply fixed_pair; assumption).
    rewrite (size_vec _ _ _ (fixed_pair _ _ _ _ F3 F3)). lia.
  Qed.
End C67.
Print Assumptions C67_gipa_roundtrip.
Print Assumptions C67_gipa_canonical.
Print Assumptions C67_gipa_size.

Section C67Tipa.
  Context {P : pairing} {MA MB : module (pK P)} {OA OB OT : carrier (pK P)}.
  Variables (cF : codec (pK P)) (cG1 : codec (pG1 P)) (cG2 : codec (pG2 P)) (cMA : codec MA) (cMB : codec MB)
    (cOA : codec OA) (cOB : codec OB) (cOT : codec OT).

  Theorem C67_tipa_roundtrip dA dB dT (p : tipa_proof P MA MB OA OB OT) rest :
    roundtrip cG1 always -> roundtrip cG2 always ->
    roundtrip cMA always -> roundtrip cMB always -> roundtrip cOA dA -> roundtrip cOB dB -> roundtrip cOT dT ->
    gipa_dom dA dB dT (tp_gipa p) ->
    dec (codec_tipa cG1 cG2 cMA cMB cOA cOB cOT) (enc (codec_tipa cG1 cG2 cMA cMB cOA cOB cOT) p ++ rest) = Some (p, rest).
  Proof.
    intros R1 R2 RA RB ROA ROB ROT H. unfold codec_tipa.
    eapply (roundtrip_iso _ _ _ (both (both (gipa_dom dA dB dT) (both always always)) (both always always))).
    - now intros [].
    - repeat apply roundtrip_pair; try assumption. intros q r Hq. now apply (C67_gipa_roundtrip _ _ _ _ _ dA dB dT).
    - split; [split; [exact H | split; exact I] | split; exact I].
  Qed.

  Theorem C67_tipa_canonical (p : tipa_proof P MA MB OA OB OT) i rest :
    canonical cG1 -> canonical cG2 ->
    canonical cMA -> canonical cMB -> canonical cOA -> canonical cOB -> canonical cOT ->
    Forall is_byte i -> dec (codec_tipa cG1 cG2 cMA cMB cOA cOB cOT) i = Some (p, rest) ->
    i = enc (codec_tipa cG1 cG2 cMA cMB cOA cOB cOT) p ++ rest.
  Proof.
    intros. cut (canonical (codec_tipa cG1 cG2 cMA cMB cOA cOB cOT)); [intros C; now apply C|].
    apply canonical_iso; [now intros [[]]|].
    repeat apply canonical_pair; try assumption. intros j q r Hj E. now apply C67_gipa_canonical.
  Qed.

  Theorem C67_tssm_roundtrip dA dT (p : tssm_proof P MA OA OT) rest :
    roundtrip cF always -> roundtrip cG2 always -> roundtrip cMA always -> roundtrip cOA dA -> roundtrip cOT dT ->
    gipa_dom dA always dT (ts_gipa p) ->
    dec (codec_tssm cF cG2 cMA cOA cOT) (enc (codec_tssm cF cG2 cMA cOA cOT) p ++ rest) = Some (p, rest).
  Proof.
    intros RF R2 RA ROA ROT H. unfold codec_tssm.
    eapply (roundtrip_iso _ _ _ (both (both (gipa_dom dA always dT) always) always)).
    - now intros [].
    - repeat apply roundtrip_pair; try assumption. intros q r Hq. now apply (C67_gipa_roundtrip _ _ _ _ _ dA always dT).
    - split; [split; [exact H | exact I] | exact I].
  Qed.

  Theorem C67_tssm_canonical (p : tssm_proof P MA OA OT) i rest :
    canonical cF -> canonical cG2 -> canonical cMA -> canonical cOA -> canonical cOT ->
    Forall is_byte i -> dec (codec_tssm cF cG2 cMA cOA cOT) i = Some (p, rest) ->
    i = enc (codec_tssm cF cG2 cMA cOA cOT) p ++ rest.
  Proof.
    intros. cut (canonical (codec_tssm cF cG2 cMA cOA cOT)); [intros C; now apply C|].
    apply canonical_iso; [now intros [[]]|].
    repeat apply canonical_pair; try assumption. intros j q r Hj E. now apply C67_gipa_canonical.
  Qed.
End C67Tipa.
Print Assumptions C67_tipa_roundtrip.
Print Assumptions C67_tipa_canonical.
Print Assumptions C67_tssm_roundtrip.
Print Assumptions C67_tssm_canonical.

(** the proof types of the Groth16 aggregation: vectors of group elements as inner-product commitments *)
Theorem C67_identity_output {K} {T : module K} (c : codec T) (o : identity_output T) rest :
  roundtrip c always -> u64_bound (length o) ->
  dec (codec_identity_output c) (enc (codec_identity_output c) o ++ rest) = Some (o, rest).
Proof.
  intros R H. apply (roundtrip_vec c always R). split; [exact H|]. apply Forall_forall. intros; exact I.
Qed.
Print Assumptions C67_identity_output.

(** placeholder keys take no bytes; a vector of them is its length *)
Theorem C67_placeholder : roundtrip codec_unit always /\ canonical codec_unit /\ fixed_size codec_unit 0.
Proof. split; [now intros [] rest _|]. split; [|now intros a]. intros i [] rest _ H. cbn in H. now injection H as <-. Qed.
Theorem C67_placeholder_keys (ks : list unit) : length (enc (codec_vec codec_unit) ks) = 8 /\
  (u64_bound (length ks) -> forall rest, dec (codec_vec codec_unit) (enc (codec_vec codec_unit) ks ++ rest) = Some (ks, rest)) /\
  (forall i rest, Forall is_byte i -> dec (codec_vec codec_unit) i = Some (ks, rest) -> i = enc (codec_vec codec_unit) ks ++ rest).
Proof.
  destruct C67_placeholder as (R & C & F). split; [|split].
  - cbn [enc codec_vec]. unfold ser_list. rewrite app_length. rewrite u64_le_length. replace (flat_map (enc codec_unit) ks) with (@nil N); [reflexivity|].
    induction ks as [|k ks IH]; [reflexivity|exact IH].
  - intros H rest. apply (roundtrip_vec codec_unit always R). split; [exact H|]. apply Forall_forall. intros; exact I.
  - intros i rest. now apply (canonical_vec codec_unit C).
Qed.
Print Assumptions C67_placeholder.
Print Assumptions C67_placeholder_keys.

(** ** Examples *)
Definition zp_codec : codec zp :=
  mk_codec (fun a => [Z.to_N (zp_val a)])
    (fun i => match i with
              | [] => None
              | x :: r => if (x <? 101)%N then Some (zp_of (Z.of_N x), r) else None
              end).

Example C67_codec_example : roundtrip zp_codec always /\ canonical zp_codec /\ fixed_size zp_codec 1.
Proof.
  split; [|split; [|now intros a]].
  - intros a rest _. cbn [enc dec zp_codec app]. pose proof (zp_range a) as H. unfold zp_p in H.
    destruct (N.ltb_spec (Z.to_N (zp_val a)) 101) as [_|E]; [|lia].
    do 2 f_equal. apply zp_eq. rewrite zp_val_of, Z2N.id by lia. apply zp_mod.
  - intros i a rest _ E. cbn [dec zp_codec] in E. destruct i as [|x r]; [discriminate|].
    destruct (N.ltb_spec x 101) as [H|H]; [|discriminate]. injection E as <- <-. cbn [enc zp_codec app].
    rewrite zp_val_of, Z.mod_small by (unfold zp_p; lia). now rewrite N2Z.id.
Qed.

(** an honest TIPA proof for four messages, sent and received with a trailing byte: 2 rounds of 2 * (1 + 1 + 9) bytes *)
Definition ex_wire : codec (tipa_proof ZPair ZM ZM (mod_carrier ZM) (mod_carrier ZM) (identity_output ZM)) :=
  codec_tipa (P := ZPair) (MA := ZM) (MB := ZM) (OA := mod_carrier ZM) (OB := mod_carrier ZM)
    zp_codec zp_codec zp_codec zp_codec zp_codec zp_codec (codec_identity_output (K := ZP) (T := ZM) zp_codec).
Example C67_example :
  (do s <- ex_srs 4; do v <- get_verifier_key s;
   let '(ka, kb) := get_commitment_keys s in
   do p <- ex_tprove s (ex_a, ex_b) (ka, kb, tt) f1;
   let i := enc ex_wire p in
   do (q, rest) <- runwrap (dec ex_wire (i ++ [9%N]));
   do ok <- ex_tverify v tt (ex_tcom ka kb ex_a) q f1;
   Ok (length i, rest, ok, match dec ex_wire (removelast i) with None => true | _ => false end))
  = Ok (8 + 2 * (2 * (1 + 1 + 9)) + 2 + 2 + 2, [9%N], true, true).
Proof. vm_compute. reflexivity. Qed.
Example C67_placeholder_example : u64_bound (length [tt; tt; tt]) /\ enc (codec_vec codec_unit) [tt; tt; tt] = [3; 0; 0; 0; 0; 0; 0; 0]%N /\
  dec (codec_vec codec_unit) [3; 0; 0; 0; 0; 0; 0; 0; 7]%N = Some ([tt; tt; tt], [7%N]).
Proof. repeat split; vm_compute; reflexivity. Qed.

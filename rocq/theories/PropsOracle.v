(** Property C95: SIPP as a non-interactive argument, with the hash function as a random oracle. *)
Require Import List Arith NArith ZArith Lia Bool Field.
Import ListNotations.
Require Import Verif.Outcome Verif.Algebra Verif.Zp Verif.Rust Verif.InnerProducts Verif.Rng Verif.Sipp
  Verif.Spec Verif.ListFacts Verif.RustFacts Verif.InnerProductFacts Verif.GipaFacts Verif.KeyFacts
  Verif.RootFacts Verif.SerFacts Verif.SippFacts Verif.Forking Verif.Oracle Verif.PropsBase Verif.PropsSipp Verif.PropsForking.

Section C95.
  Variables (P : pairing) (E : penv) (S : stream).
  Notation K := (pK P).
  Notation G1 := (pG1 P).
  Notation G2 := (pG2 P).
  Notation GT := (pGT P).
  Notation claim := (list G1 * list G2 * list K * GT)%type.
  Notation elems := (list (GT * GT)).

  (** The adversary asks for the hash of [ask answers], where [answers] are those to its queries so far, and finally
      claims the statement and proof [out answers]. *)
  Variables (ask : list bytes -> bytes) (out : list bytes -> claim * elems).

  (** what SIPP::verify hashes *)
  Definition ser_pair (z : GT * GT) : bytes := mser (fst z) ++ mser (snd z).
  Definition hashed (D : bytes -> bytes) (x : claim) (zs : elems) (q : bytes) : Prop :=
    let '(a, b, r, v) := x in
    q = sipp_seed P a b r v \/
    exists j z, nth_error zs j = Some z /\ q = ser_pair z ++ hash_chain D (sipp_seed P a b r v) (map ser_pair (firstn j zs)).

  (** With the answers [w] the adversary succeeds: for a hash function that gives these answers the verifier accepts its proof
      of a wrong value, and the adversary has asked for everything the verifier hashes. *)
  Definition fools (w : list bytes) : Prop :=
    exists D, (forall t, t < length w -> D (ask (firstn t w)) = nth t w []) /\
      let '(a, b, r, v, zs) := out w in
      u64_bound (length a) /\ u64_bound (length b) /\ u64_bound (length r) /\
      sipp_verify P E S D a b r v zs = Ok true /\ v <> sipp_value P a b r /\
      forall q, hashed D (a, b, r, v) zs q -> exists t, t < length w /\ ask (firstn t w) = q.

  (** at most [beta] of the digests [Om] lead to the same challenge *)
  Definition spread (Om : list bytes) (beta : nat) : Prop :=
    forall (x : K) l, NoDup l -> (forall c, In c l -> In c Om /\ draw128 P S c = x) -> length l <= beta.

  Definition claim_ok (x : claim) : Prop :=
    let '(a, b, r, v) := x in
    u64_bound (length a) /\ u64_bound (length b) /\ u64_bound (length r) /\ exists k, length a = 2 ^ k /\ length b = 2 ^ k.
  Definition seed_of (x : claim) : bytes := let '(a, b, r, v) := x in sipp_seed P a b r v.
  Definition meets (x : claim) (h : list ((GT * GT) * bytes)) (z : GT * GT) (c : bytes) : Prop :=
    let '(a, b, r, v) := x in
    length h < Nat.log2 (length a) /\
    sipp_bad (sipp_rounds (scaled_by P r a, b, v) (map fst h) (map (fun p => draw128 P S (snd p)) h)) z (draw128 P S c).

  Lemma meets_few Om beta x h z l : spread Om beta -> claim_ok x -> NoDup l -> (forall c, In c l -> In c Om /\ meets x h z c) ->
    length l <= beta * 3.
  Proof using.
    intros Hb Hx Hn H. destruct x as [[[a b] r] v]. destruct Hx as [_ [_ [_ [k [Ha Hb']]]]].
    apply (fibre_bound (f_eq_dec K) (draw128 P S)); [exact Hn| |].
    - intros x l' Hl H'. apply (Hb x); [exact Hl|]. intros c Hc. destruct (H' c Hc) as [H1 H2]. split; [now apply H|exact H2].
    - intros xs Hxs Hi.
      assert (Hk : forall c, In c l -> length h < k).
      { intros c Hc. destruct (H c Hc) as [_ [Hlt _]]. now rewrite Ha, Nat.log2_pow2 in Hlt by lia. }
      assert (Hxc : forall x, In x xs -> length h < k /\ sipp_bad (sipp_rounds (scaled_by P r a, b, v) (map fst h) (map (fun p => draw128 P S (snd p)) h)) z x).
      { intros x Hx. destruct (Hi x Hx) as [c [Hc <-]]. split; [now apply (Hk c)|]. now destruct (H c Hc) as [_ [_ Hm]]. }
      destruct xs as [|x0 xs0] eqn:Exs; [cbn; lia|]. rewrite <- Exs in *.
      destruct (Hxc x0) as [Hh _]; [rewrite Exs; apply in_eq|].
      destruct (sipp_rounds_length (map fst h) (map (fun p => draw128 P S (snd p)) h) k (scaled_by P r a, b, v)) as [H1 H2];
        try (cbn [fst snd]; rewrite ?map_length, ?scaled_by_length; auto; lia).
      rewrite map_length in H1, H2.
      destruct (sipp_rounds (scaled_by P r a, b, v) _ _) as [[a' b'] v']. cbn [fst snd] in *.
      apply (sipp_bad_bound a' b' v' z xs); auto; [|congruence|intros x Hx; now apply Hxc].
      exists (2 ^ (k - length h - 1)). rewrite H1. replace (k - length h) with (Datatypes.S (k - length h - 1)) at 1 by lia.
      cbn [Nat.pow]. lia.
  Qed.

  Section Count.
    Variables (Om : list bytes) (dl beta : nat).
    Hypothesis NOm : NoDup Om.
    Hypothesis Odl : forall c, In c Om -> length c = dl.
    Hypothesis Hspread : spread Om beta.
    Hypotheses (F1 : prefix_free (@mser _ G1)) (F2 : prefix_free (@mser _ G2)) (FF : prefix_free (@fser K)) (FT : prefix_free (@mser _ GT)).

    Lemma seed_of_inj x x' : claim_ok x -> claim_ok x' -> seed_of x = seed_of x' -> x = x'.
    Proof using F1 F2 FF FT.
      destruct x as [[[a b] r] v], x' as [[[a' b'] r'] v']. intros (U1 & U2 & U3 & _) (U4 & U5 & U6 & _) H.
      apply sipp_seed_inj in H as (-> & -> & -> & ->); auto.
    Qed.
    Lemma ser_pair_inj z z' d d' : ser_pair z ++ d = ser_pair z' ++ d' -> z = z' /\ d = d'.
    Proof using FT. intros H. apply sipp_absorb_inj in H as (H1 & H2 & H3); auto. destruct z, z'; cbn in *; split; congruence. Qed.

    Lemma fools_bad w : incl w Om -> fools w -> exists pre c post, w = pre ++ c :: post /\ bad Om ask claim_ok seed_of ser_pair meets pre c.
    Proof using.
      intros Hw [D [HD H]]. destruct (out w) as [[[[a b] r] v] zs]. destruct H as (U1 & U2 & U3 & Hver & Hv & Hq).
      destruct (C46_sound (E := E) (S := S) (D := D) a b r v zs U1 Hver Hv) as [i [Hi Hbad]].
      assert (Hk : exists k, 1 <= k /\ length a = 2 ^ k /\ length b = 2 ^ k /\ length zs = k /\ 2 ^ k <= length r).
      { assert (Ht : sipp_verify P E S D a b r v zs = Ok true) by exact Hver.
        destruct (C48_verify_outcome (E := E) (S := S) (D := D) a b r v zs U1) as [_ Hp].
        assert (Hd : sipp_shape a b r zs \/ ~ sipp_shape a b r zs).
        { unfold sipp_shape. destruct (Nat.eq_dec (length a) (2 ^ length zs)) as [H1|H1]; [|right; intros (k & ? & ? & ? & ? & ?); subst k; auto].
          destruct (Nat.eq_dec (length b) (2 ^ length zs)) as [H2|H2]; [|right; intros (k & ? & ? & ? & ? & ?); subst k; auto].
          destruct (le_dec (length a) (length r)) as [H3|H3]; [|right; intros (k & ? & ? & ? & ? & ?); auto].
          left. exists (length zs). repeat split; auto. lia. }
        destruct Hd as [(k & H1 & H2 & H3 & H4 & H5)|Hd]; [exists k; repeat split; auto; lia|]. rewrite (Hp Hd) in Ht. discriminate. }
      destruct Hk as (k & Hk1 & Ha & Hb & Hz & Hr).
      apply (hit_is_bad Om ask claim_ok seed_of ser_pair meets D w Hw HD (a, b, r, v) zs i (nth i zs (m0, m0))).
      - repeat split; auto. exists k. auto.
      - apply Hq. now left.
      - intros j z Hj. apply Hq. right. exists j, z. auto.
      - now apply nth_error_nth'.
      - cbn [meets]. assert (Hfl : length (firstn i zs) = i) by (rewrite firstn_length; lia).
        assert (Hdl : length (digests seed_of ser_pair D (a, b, r, v) (firstn i zs)) = i).
        { unfold digests. rewrite combine_length, map_length, seq_length, Hfl. lia. }
        split; [rewrite Hdl, Ha, Nat.log2_pow2; lia|].
        rewrite digests_fst, (digests_snd seed_of ser_pair D (draw128 P S)). exact Hbad.
    Qed.

    Variables (Q : nat) (L : list (list bytes)).
    Hypothesis NL : NoDup L.
    Hypothesis HL : forall w, In w L -> length w = Q /\ incl w Om /\ fools w.

    (** of the M^Q sequences of answers to Q queries *)
    Theorem C95_sipp_sound : length L <= (3 * beta + 2) * Q * Q * length Om ^ (Q - 1).
    Proof using NOm Odl Hspread F1 F2 FF FT NL HL.
      etransitivity; [apply (few_bad_any (list_eq_dec N.eq_dec) Om NOm ((3 * beta + 2) * Q) Q (bad Om ask claim_ok seed_of ser_pair meets) L)|].
      - intros pre l Hp Hl Hbad.
        etransitivity; [apply (few_bad_all Om dl Odl ask claim_ok seed_of ser_pair seed_of_inj ser_pair_inj meets (beta * 3)
                                 (fun x h z l => meets_few Om beta x h z l Hspread) pre l Hl Hbad)|].
        rewrite (Nat.mul_comm beta 3). generalize (3 * beta). intros n. assert (n * length pre <= n * Q) by (apply Nat.mul_le_mono_l; lia). rewrite Nat.mul_add_distr_r. unfold bytes in *. lia.
      - exact NL.
      - intros w Hw. destruct (HL w Hw) as [H1 [H2 H3]]. split; [exact H1|]. split; [exact H2|now apply fools_bad].
      - reflexivity.
    Qed.

    (** if the encoding of a statement never looks like a pair of elements followed by a digest *)
    Theorem C95_sipp_sound_separated :
      (forall a b r v z d, claim_ok (a, b, r, v) -> In d Om -> sipp_seed P a b r v <> ser_pair z ++ d) ->
      length L <= (3 * beta + 2 * Q) * Q * length Om ^ (Q - 1).
    Proof using NOm Odl Hspread F1 F2 FF FT NL HL.
      intros Hsep.
      etransitivity; [apply (few_bad_any (list_eq_dec N.eq_dec) Om NOm (3 * beta + 2 * Q) Q (fun w c => incl w Om /\ bad Om ask claim_ok seed_of ser_pair meets w c) L)|].
      - intros pre l Hp Hl Hbad. destruct l as [|c0 l0] eqn:El; [cbn; lia|]. rewrite <- El in *.
        destruct (Hbad c0) as [Hpre _]; [rewrite El; apply in_eq|].
        etransitivity; [apply (few_bad_separated Om dl Odl ask claim_ok seed_of ser_pair seed_of_inj ser_pair_inj meets (beta * 3)
                                 (fun x h z l => meets_few Om beta x h z l Hspread) pre l); [|exact Hpre|exact Hl|intros c Hc; now apply Hbad]|unfold bytes in *; lia].
        intros [[[a b] r] v] z d. apply Hsep.
      - exact NL.
      - intros w Hw. destruct (HL w Hw) as [H1 [H2 H3]]. split; [exact H1|]. split; [exact H2|].
        destruct (fools_bad w H2 H3) as [pre [c [post [-> Hb]]]]. exists pre, c, post. split; [reflexivity|]. split; [|exact Hb].
        intros x Hx. apply H2, in_or_app. now left.
      - reflexivity.
    Qed.
  End Count.

  (** ... which holds when all encodings and the digest have sizes divisible by 16, as for the curves and hash functions used here:
      the three length prefixes add 24 bytes *)
  Theorem C95_separated (Om : list bytes) :
    (forall c, In c Om -> length c mod 16 = 0) ->
    (forall g : G1, length (mser g) mod 16 = 0) -> (forall g : G2, length (mser g) mod 16 = 0) ->
    (forall x : K, length (fser x) mod 16 = 0) -> (forall g : GT, length (mser g) mod 16 = 0) ->
    forall a b r v z d, In d Om -> sipp_seed P a b r v <> ser_pair z ++ d.
  Proof using.
    intros HO H1 H2 HF HT a b r v z d Hd He. apply (f_equal (@length N)) in He.
    assert (Hl : forall A (f : A -> bytes) l, (forall x, length (f x) mod 16 = 0) -> exists k, length (ser_list f l) = 8 + 16 * k).
    { intros A f l Hf. unfold ser_list. rewrite app_length, u64_le_length. induction l as [|x l [k IH]]; [exists 0; reflexivity|].
      cbn [flat_map]. rewrite app_length. exists (length (f x) / 16 + k). pose proof (Nat.div_mod (length (f x)) 16 ltac:(lia)) as Hx. rewrite Hf in Hx. lia. }
    unfold sipp_seed, ser_pair in He. rewrite !app_length in He.
    destruct (Hl _ mser a H1) as [k1 E1]. destruct (Hl _ mser b H2) as [k2 E2]. destruct (Hl _ fser r HF) as [k3 E3].
    rewrite E1, E2, E3 in He.
    pose proof (Nat.div_mod (length (mser v)) 16 ltac:(lia)) as D1. rewrite HT in D1.
    pose proof (Nat.div_mod (length (mser (fst z))) 16 ltac:(lia)) as D2. rewrite HT in D2.
    pose proof (Nat.div_mod (length (mser (snd z))) 16 ltac:(lia)) as D3. rewrite HT in D3.
    pose proof (Nat.div_mod (length d) 16 ltac:(lia)) as D4. rewrite (HO d Hd) in D4. lia.
  Qed.
End C95.
Print Assumptions C95_sipp_sound.
Print Assumptions C95_sipp_sound_separated.
Print Assumptions C95_separated.

(** ** Example: the gambler of C94 as an adversary with two queries; digests are single bytes and the challenge is the digest *)
Definition ex_claim : list ZM * list ZM * list ZP * ZM := (zl [2; 3]%Z, zl [7; 8]%Z, zl [1; 1]%Z, zq 39).
Definition ex_ask (w : list bytes) : bytes :=
  match w with
  | [] => sipp_seed ZPair (zl [2; 3]%Z) (zl [7; 8]%Z) (zl [1; 1]%Z) (zq 39)
  | d :: _ => flat_map (ser_pair ZPair) ex_bet ++ d
  end.
Definition ex_out (w : list bytes) : (list ZM * list ZM * list ZP * ZM) * list (ZM * ZM) := (ex_claim, ex_bet).
Definition ex_digests : list bytes := map (fun n => [N.of_nat n]) (seq 1 100).
(** the second answer is 5 or 7: 2 * 100 of the 100^2 sequences of answers *)
Example C95_example_fools (d : N) : d = 5%N \/ d = 7%N -> fools ZPair ex_env toy_stream ex_ask ex_out [[1%N]; [d]].
Proof.
  intros Hd. exists (fun q => if Nat.eqb (length q) 3 then [d] else [1%N]). split.
  - intros [|[|t]] Ht; cbn [length] in Ht; [vm_compute; reflexivity|vm_compute; reflexivity|lia].
  - cbn [ex_out ex_claim]. split; [vm_compute; reflexivity|]. split; [vm_compute; reflexivity|]. split; [vm_compute; reflexivity|].
    split; [destruct Hd as [->| ->]; vm_compute; reflexivity|]. split; [vm_compute; discriminate|].
    intros q [->|[j [z [Hj ->]]]]; [exists 0; split; [cbn; lia|reflexivity]|].
    destruct j as [|j]; [|destruct j; discriminate]. exists 1. split; [cbn; lia|].
    cbn [nth_error ex_bet rounds_sent] in Hj. injection Hj as <-. vm_compute. reflexivity.
Qed.
Example C95_example_hypotheses :
  NoDup ex_digests /\ (forall c, In c ex_digests -> length c = 1) /\ spread ZPair toy_stream ex_digests 1 /\
  prefix_free (@mser _ (pG1 ZPair)) /\ prefix_free (@mser _ (pG2 ZPair)) /\ prefix_free (@fser ZP) /\ prefix_free (@mser _ (pGT ZPair)) /\
  (forall a b r v z d, claim_ok ZPair (a, b, r, v) -> In d ex_digests -> sipp_seed ZPair a b r v <> ser_pair ZPair z ++ d).
Proof.
  assert (Hin : forall c, In c ex_digests -> exists n, 1 <= n /\ n < 101 /\ c = [N.of_nat n]).
  { intros c Hc. unfold ex_digests in Hc. apply in_map_iff in Hc as [n [<- Hn]]. apply in_seq in Hn. exists n. split; [lia|]. split; [lia|reflexivity]. }
  assert (F : prefix_free (@fser ZP)) by apply C50_example.
  split; [|split; [|split]].
  - unfold ex_digests. apply FinFun.Injective_map_NoDup; [|apply seq_NoDup]. intros x y H. injection H as H. lia.
  - intros c Hc. destruct (Hin c Hc) as [n [_ [_ ->]]]. reflexivity.
  - intros x l Hl H. destruct l as [|c [|c' l]]; [cbn; lia|cbn; lia|]. exfalso.
    destruct (H c (in_eq _ _)) as [H1 H2]. destruct (H c') as [H3 H4]; [right; now left|].
    inversion Hl as [|? ? Hne _]; subst. apply Hne. left.
    destruct (Hin _ H1) as [n [N1 [N2 ->]]]. destruct (Hin _ H3) as [n' [N3 [N4 ->]]]. clear - H4 N1 N2 N3 N4.
    assert (E : forall m, draw128 ZPair toy_stream [N.of_nat m] = zp_of (Z.of_nat m)).
    { intros m. unfold draw128. cbn [toy_stream st_next_u64 st_from_seed fold_left]. rewrite N.add_0_l, N.shiftl_0_l, N.lor_0_l.
      cbn [f_ofN pK ZPair ZP]. now rewrite nat_N_Z. }
    rewrite !E in H4. apply (f_equal zp_val) in H4. rewrite !zp_val_of, !Z.mod_small in H4 by (unfold zp_p; lia).
    apply Nat2Z.inj in H4. now rewrite H4.
  - split; [exact F|]. split; [exact F|]. split; [exact F|]. split; [exact F|].
    intros a b r v z d _ Hd He. apply (f_equal (@length N)) in He. destruct (Hin d Hd) as [n [_ [_ ->]]].
    unfold sipp_seed, ser_pair, ser_list in He. rewrite !app_length, !u64_le_length in He. cbn [length] in He.
    assert (Hs : forall g : ZM, length (mser g) = 1) by reflexivity. rewrite !Hs in He. lia.
Qed.

(** Property C103: TIPA as a non-interactive argument, with the hash function as a random oracle, for provers that know openings
    of the commitments they send and the coefficients of their final keys and key openings. *)
Require Import List Arith NArith ZArith Lia Bool Field.
Import ListNotations.
Require Import Verif.Outcome Verif.Algebra Verif.Zp Verif.Rust Verif.InnerProducts Verif.Commitments
  Verif.Gipa Verif.Poly Verif.Tipa Verif.Ssm Verif.Spec Verif.ListFacts Verif.RustFacts Verif.InnerProductFacts Verif.CommitFacts
  Verif.GipaFacts Verif.GipaComplete Verif.GipaTop Verif.PolyFacts Verif.TipaFacts Verif.SsmFacts Verif.GipaAttack Verif.SerFacts Verif.KeyFacts
  Verif.PropsBase Verif.PropsGipa Verif.PropsTipa Verif.PropsVerify Verif.PropsTipaForge Verif.PropsMalleable
  Verif.PropsForkingTwo Verif.Algebraic Verif.PropsAlgebraic Verif.Oracle Verif.OracleValues Verif.Rounds Verif.PropsSpecial Verif.PropsGipaOracle Verif.PropsSsmOracle.

(** at most [gamma] of the digests [Om] decode to the same field element *)
Definition points_spread (K : field) (Om : list bytes) (gamma : nat) : Prop :=
  forall (z : K) l, NoDup l -> (forall d, In d l -> In d Om /\ f_rand d = Some z) -> length l <= gamma.

(** everything hashed to draw the point of the key opening: the nonces up to the first digest that decodes *)
Definition point_hashed (K : field) (D : bytes -> bytes) (fuel : nat) (payload q : bytes) : Prop :=
  exists n, n < fuel /\ (forall i, i < n -> f_rand (f := K) (D (usize_be i ++ payload)) = None) /\ q = usize_be n ++ payload.

(** the time of the query that gave the point *)
Fixpoint point_time (K : field) (ask : list bytes -> bytes) (w : list bytes) (f n : nat) (payload : bytes) : option nat :=
  match f with
  | O => None
  | S f =>
    match time_of ask w (usize_be n ++ payload) with
    | Some t => match f_rand (f := K) (nth t w []) with Some _ => Some t | None => point_time K ask w f (S n) payload end
    | None => None
    end
  end.

Lemma point_time_found (K : field) (ask : list bytes -> bytes) (w : list bytes) (D : bytes -> bytes) fuel payload (z : K) : (forall t, t < length w -> D (ask (firstn t w)) = nth t w []) ->
  drawn D fuel payload z -> (forall q, point_hashed K D fuel payload q -> exists t, t < length w /\ ask (firstn t w) = q) ->
  exists n t, point_time K ask w fuel 0 payload = Some t /\ t < length w /\ ask (firstn t w) = usize_be n ++ payload /\ f_rand (nth t w []) = Some z.
Proof.
  intros HD (n & Hn & Hz & Hno) Hq.
  assert (Hf : forall d i f, i + d = n -> d < f -> exists t, point_time K ask w f i payload = Some t /\ t < length w /\
                 ask (firstn t w) = usize_be n ++ payload /\ f_rand (nth t w []) = Some z).
  { induction d as [|d IH]; intros i f Ei Hf; (destruct f as [|f]; [lia|]); cbn [point_time].
    - assert (i = n) by lia. subst i. destruct (time_of_asked ask w (usize_be n ++ payload)) as (t & -> & Ht & Et).
      { apply Hq. exists n. auto. }
      pose proof (HD t Ht) as E. rewrite Et in E. assert (Er : f_rand (f := K) (nth t w []) = Some z) by (rewrite <- E; exact Hz).
      rewrite Er. exists t. auto.
    - destruct (time_of_asked ask w (usize_be i ++ payload)) as (t & -> & Ht & Et).
      { apply Hq. exists i. split; [lia|]. split; [|reflexivity]. intros j Hj. apply Hno. lia. }
      pose proof (HD t Ht) as E. rewrite Et in E. assert (Er : f_rand (f := K) (nth t w []) = None) by (rewrite <- E; apply Hno; lia).
      rewrite Er. apply IH; lia. }
  destruct (Hf n 0 fuel eq_refl Hn) as (t & Ht). exists n, t. exact Ht.
Qed.

(** ** TIPA *)
Section Tipa.
  Context {R : Type} {P : pairing} {MA MB MT XA XB : module (pK P)}.
  Notation K := (pK P).
  Context (LMC : dhc R MA (pG2 P) (mod_carrier XA)) (RMC : dhc R MB (pG1 P) (mod_carrier XB)) (ip : list MA -> list MB -> res MT).
  Context (fA : pG2 P -> MA -> XA) (fB : pG1 P -> MB -> XB) (th : MA -> MB -> MT).
  Hypothesis LA : lin_commit LMC mid fA.
  Hypothesis LB : lin_commit RMC mid fB.
  Hypothesis LI : lin_ip ip th.
  Notation com := (com3 (mod_carrier XA) (mod_carrier XB) (identity_output MT)).
  Notation step := (com * com)%type.
  Notation openings := ((list MA * list MA) * (list MB * list MB))%type.
  Notation past := (list (step * openings * K)).
  Variables (fuel : nat) (s : srs P) (alpha beta : K) (n : nat) (ka : list (pG2 P)) (kb : list (pG1 P)) (r : K).
  Variables (kt : unitmod K) (ca : XA) (cb : XB) (ct : list MT) (a : list MA) (b : list MB).
  Notation ka' := (shift_vec (finv r) ka).

  (** the prover of C101; when it asks for the point it gives coefficients [keys answers] of the final keys in that query, and
      with the proof those of the key openings *)
  Variables (ask : list bytes -> bytes) (know : list bytes -> openings) (keys : list bytes -> comb P * comb P)
    (out : list bytes -> tipa_proof P MA MB (mod_carrier XA) (mod_carrier XB) (identity_output MT)) (opening : list bytes -> comb P * comb P).
  Definition point_input (m : nat) (c : K) (ck : pG2 P * pG1 P) : bytes := usize_be m ++ fser c ++ mser (fst ck) ++ mser (snd ck).
  Definition knows_keys : Prop :=
    (forall w m c ck, ask w = point_input m c ck -> both_g s (keys w) = ck) /\
    (forall w, tp_final_ck_proof (out w) = both_g s (opening w)).

  (** The program that looks for a relation between the trapdoors: it finds the rounds and the point among the queries. *)
  Definition relation_of (w : list bytes) : option (relation P) :=
    match round_times fuel ask w f0 (rev (gp_steps (tp_gipa (out w)))) with
    | Some ts =>
      let cs := map (fun t => challenge_of (nth t w [])) ts in
      match point_time K ask w fuel 0 (fser (last cs f0) ++ mser (fst (tp_final_ck (out w))) ++ mser (snd (tp_final_ck (out w)))) with
      | Some t => match f_rand (nth t w []) with Some z => tipa_relation n r (keys (firstn t w)) (opening w) cs z | None => None end
      | None => None
      end
    | None => None
    end.
  Definition relation_found (w : list bytes) : Prop := match relation_of w with Some rel => vanishes n alpha beta rel | None => False end.

  (** everything [TIPA::verify_with_srs_shift] hashes *)
  Definition tipa_hashed (D : bytes -> bytes) (proof : tipa_proof P MA MB (mod_carrier XA) (mod_carrier XB) (identity_output MT)) (q : bytes) : Prop :=
    gipa_hashed D fuel f0 (rev (gp_steps (tp_gipa proof))) q \/
    exists cs, round_challenges D fuel f0 (rev (gp_steps (tp_gipa proof))) cs /\
      point_hashed K D fuel (fser (last cs f0) ++ mser (fst (tp_final_ck proof)) ++ mser (snd (tp_final_ck proof))) q.

  Definition tipa_fools (v : vsrs P) (w : list bytes) : Prop :=
    exists D, digest16 D /\ (forall t, t < length w -> D (ask (firstn t w)) = nth t w []) /\
      Forall ok_round (gp_steps (tp_gipa (out w))) /\ n = 2 ^ length (gp_steps (tp_gipa (out w))) /\
      tipa_verify_with_srs_shift LMC RMC (identity MT) ip D fuel v kt (ca, cb, ct) (out w) r = Ok true /\
      (forall q, tipa_hashed D (out w) q -> exists t, t < length w /\ ask (firstn t w) = q) /\
      ~ collision_found LMC RMC fuel ka' kb ct a b ask know (fun w => tp_gipa (out w)) w /\ ~ relation_found w.

  Hypotheses (Hn : 0 < n) (Hs : srs_ok s alpha beta n) (Hg : pr_g P <> m0) (Hh : pr_h P <> m0).
  Hypothesis Hk : get_commitment_keys s = (ka, kb).

  Definition right_keys (cs : list K) : pG2 P * pG1 P :=
    (key_poly (map finv (rev cs)) (finv r) beta *m pr_h P, key_poly (rev cs) f1 alpha *m pr_g P).
  Definition lucky_point (h : past) (ck : pG2 P * pG1 P) (e : comb P * comb P) (z : K) : Prop :=
    n = 2 ^ length h /\ both_g s e <> right_keys (map snd h) /\ exists o, tipa_relation n r e o (map snd h) z = None.

  Lemma lucky_point_few h ck e zs : NoDup zs -> (forall z, In z zs -> lucky_point h ck e z) -> length zs <= 2 * n - 2.
  Proof using Hs.
    clear Hn. intros Hz H. destruct (Nat.le_gt_cases (length zs) (2 * n - 2)) as [|Hl]; [assumption|exfalso].
    destruct zs as [|z0 zs0] eqn:Ez; [cbn in Hl; lia|]. rewrite <- Ez in *.
    destruct (H z0) as (Hlen & Hne & _); [rewrite Ez; apply in_eq|]. apply Hne. unfold both_g, right_keys. f_equal.
    - apply (g2_right s alpha beta n Hs _ _ _ zs); auto; [now rewrite map_length, rev_length, map_length|].
      intros z Hi. destruct (H z Hi) as (_ & _ & o & Ho). exists (fst o). apply (side_relation_none InBeta). unfold tipa_relation in Ho.
      destruct (side_relation InBeta _ _ _ _ _); [discriminate|reflexivity].
    - apply (g1_right s alpha beta n Hs _ _ _ zs); auto; [now rewrite rev_length, map_length|].
      intros z Hi. destruct (H z Hi) as (_ & _ & o & Ho). exists (snd o). apply (side_relation_none InAlpha). unfold tipa_relation in Ho.
      destruct (side_relation InBeta _ _ _ _ _); [discriminate|exact Ho].
  Qed.

  Lemma point_input_inj m m' c c' ck ck' : prefix_free (@fser K) -> prefix_free (@mser K (pG2 P)) -> prefix_free (@mser K (pG1 P)) ->
    point_input m c ck = point_input m' c' ck' -> c = c' /\ ck = ck'.
  Proof using.
    clear. intros HF H2 H1. unfold point_input. intros E. apply app_same_length in E as [_ E]; [|now rewrite !usize_be_length].
    apply HF in E as [-> E]. destruct ck as [x y], ck' as [x' y']. cbn [fst snd] in E. apply H2 in E as [-> E].
    rewrite <- (app_nil_r (mser y)), <- (app_nil_r (mser y')) in E. apply H1 in E as [-> _]. auto.
  Qed.

  Hypotheses (Ha : length a = n) (Hb : length b = n).
  Hypotheses (Ea : dh_commit LMC ka' a = Ok ca) (Eb : dh_commit RMC kb b = Ok cb).
  Hypothesis Hfalse : ip a b <> Ok (at_ ct 0).
  Hypothesis Hknow : knows_openings LMC RMC (MT := MT) ka' kb ask know.
  Hypothesis Hkeys : knows_keys.

  Lemma key_lengths : length ka' = n /\ length kb = n.
  Proof using Hk Hs Hn.
    destruct (C21_keys s alpha beta n Hn Hs) as [[ka1 [kb1 [E1 [L1 [L2 _]]]]] _]. rewrite Hk in E1. injection E1 as <- <-.
    unfold shift_vec. rewrite map_length, seq_length. auto.
  Qed.

  Notation lucky := (becomes_right LMC RMC th ka' kb ct a b).
  Lemma tipa_fools_bad w Om : incl w Om -> tipa_fools (key_of alpha beta) w ->
    bad_last_somewhere f0 Om challenge_of ok_round pay ask know lucky w (f_rand (f := K)) (fun _ => True) point_input keys lucky_point.
  Proof using Ha Hb Ea Eb Hfalse Hknow Hkeys LA LB LI Hn Hs Hg Hh Hk.
    intros Ow (D & H16 & HD & Hok & Hlen & Hv & Hq & Hno & Hnr). destruct key_lengths as [La Lb].
    destruct (proj1 (tipa_verify_api D fuel H16 _ _ _ _ _ _ _ _ _ _) Hv) as (cs & z & v & Hch & _ & _ & Hz & [O1 O2] & _).
    set (steps := rev (gp_steps (tp_gipa (out w)))) in *.
    destruct (round_times_found fuel ask w D HD steps f0 cs Hch) as (ts & Ets & Hl & Em); [now apply Forall_rev|intros q H; apply Hq; now left|].
    pose proof (linked_length _ _ _ _ _ _ _ _ _ Hl) as El.
    destruct (point_time_found K ask w D fuel _ z HD Hz) as (m & t & Et & Ht & Eq & Ez).
    { intros q H. apply Hq. right. exists cs. auto. }
    assert (Hcl : length cs = length (gp_steps (tp_gipa (out w)))) by (rewrite <- Em, map_length, <- El; apply rev_length).
    unfold relation_found, relation_of in Hnr. fold steps in Hnr. rewrite Ets in Hnr. cbv zeta in Hnr. rewrite Em, Et, Ez in Hnr.
    destruct Hkeys as [HkA HkO]. pose proof (HkA (firstn t w) m (last cs f0) (tp_final_ck (out w)) Eq) as Ek.
    rewrite (HkO w), <- Ek in O1. rewrite (HkO w), <- Ek in O2.
    destruct (tipa_relation n r (keys (firstn t w)) (opening w) cs z) as [rel|] eqn:Er.
    { exfalso. apply Hnr. exact (tipa_relation_ok s alpha beta n Hn Hs Hg Hh r _ _ cs z rel O1 O2 Er). }
    destruct (folded_keys_eval s alpha beta ka kb r n cs Hn Hs Hk) as (_ & _ & _ & F1 & F2); [congruence|].
    destruct (rounds_maps know w steps ts El) as [_ M2]. rewrite Em in M2.
    assert (Hdec : {both_g s (keys (firstn t w)) = right_keys cs} + {both_g s (keys (firstn t w)) <> right_keys cs}).
    { destruct (both_g s (keys (firstn t w))) as [x y]. unfold right_keys.
      match goal with |- {(x, y) = (?u, ?v)} + {_} => destruct (m_eq_dec _ _ x u) as [->|N1]; [destruct (m_eq_dec _ _ y v) as [->|N2]; [now left|]|] end;
        right; intros E; injection E; auto. }
    destruct Hdec as [Hr|Hr].
    - apply bad_somewhere_last.
      refine (fools_bad LMC RMC ip fA fB th LA LB LI fuel ka' kb kt ca cb ct a b ask know (fun w => tp_gipa (out w)) _ _ Ea Eb Hfalse Hknow w Om Ow _); [congruence|congruence|].
      exists D. split; [exact H16|]. split; [exact HD|]. split; [exact Hok|]. split; [|split; [intros q H; apply Hq; now left|exact Hno]].
      apply (C56_right_keys_sound D fuel H16 LMC RMC (identity MT) ip s alpha beta ka kb r n kt (ca, cb, ct) (out w) cs Hs Hk Hlen Hch); [|exact Hv].
      rewrite <- Ek, Hr, F1, F2. reflexivity.
    - apply (last_is_bad (f_eq_dec K) f0 Om challenge_of ok_round pay ask know lucky w Ow (f_rand (f := K)) (fun _ => True) point_input keys lucky_point
               steps ts t m (tp_final_ck (out w)) z Hl Ht I); [|exact Ez|].
      + unfold answer. rewrite Em. exact Eq.
      + unfold lucky_point. rewrite M2. split; [|split; [exact Hr|eauto]].
        transitivity (2 ^ length cs); [congruence|]. rewrite <- M2. now rewrite map_length.
  Qed.

  Variables (Om : list bytes) (share gamma : nat).
  Hypothesis NOm : NoDup Om.
  Hypothesis Hspread : challenges_spread K Om share.
  Hypothesis Hpoints : points_spread K Om gamma.
  Hypotheses (FF : prefix_free (@fser K)) (FA : prefix_free (@mser K XA)) (FB : prefix_free (@mser K XB)) (FT : prefix_free (@mser K MT)).
  Hypotheses (F1 : prefix_free (@mser K (pG1 P))) (F2 : prefix_free (@mser K (pG2 P))).
  Variables (Q : nat) (L : list (list bytes)).
  Hypothesis NL : NoDup L.
  Hypothesis HL : forall w, In w L -> length w = Q /\ incl w Om /\ tipa_fools (key_of alpha beta) w.

  Lemma tipa_count : length L <= (share * (3 * Q + 2) + gamma * (2 * n - 2)) * Q * length Om ^ (Q - 1).
  Proof using All.
    apply (few_bad_any (list_eq_dec N.eq_dec) Om NOm (share * (3 * Q + 2) + gamma * (2 * n - 2)) Q
             (bad_last f0 Om challenge_of ok_round pay ask know lucky (f_rand (f := K)) (fun _ => True) point_input keys lucky_point) L).
    - intros pre l Hp Hl Hbad. destruct key_lengths as [La Lb].
      etransitivity; [apply (few_bad_last (f_eq_dec K) f0 Om challenge_of ok_round pay
                               (fun n n' v v' z z' => pay_inj n n' v v' z z' FF FA FB FT) ask know share Hspread lucky 3
                               (fun h z r xs => becomes_right_few LMC RMC ip fA fB th LA LB LI ka' kb ct a b h z r xs (eq_trans Ha (eq_sym La)) (eq_trans Hb (eq_sym Lb)))
                               (f_eq_dec K) (f_rand (f := K)) (fun _ => True) point_input keys
                               (fun n n' v v' f f' _ _ => point_input_inj n n' v v' f f' FF F2 F1) gamma Hpoints lucky_point (2 * n - 2) lucky_point_few pre l Hl Hbad)|].
      rewrite Nat.add_assoc. apply Nat.add_le_mono_r. rewrite <- Nat.mul_add_distr_l. apply Nat.mul_le_mono_l. unfold bytes in *. lia.
    - exact NL.
    - intros w Hw. destruct (HL w Hw) as [H1 [H2 H3]]. split; [exact H1|]. split; [exact H2|]. exact (tipa_fools_bad w Om H2 H3).
  Qed.
End Tipa.

(** ** TIPA with a structured scalar message *)
Section Tssm.
  Context {R : Type} {P : pairing} {MA MT XA : module (pK P)}.
  Notation K := (pK P).
  Context (LMC : dhc R MA (pG2 P) (mod_carrier XA)) (ip : list MA -> list (fmod K) -> res MT).
  Context (fA : pG2 P -> MA -> XA) (th : MA -> fmod K -> MT).
  Hypothesis LA : lin_commit LMC mid fA.
  Hypothesis LI : lin_ip ip th.
  Notation com := (com3 (mod_carrier XA) (mod_carrier (fmod K)) (identity_output MT)).
  Notation step := (com * com)%type.
  Notation openings := (list MA * list MA)%type.
  Notation past := (list (step * openings * K)).
  Variables (fuel : nat) (E : penv) (s : srs P) (alpha beta : K) (n : nat) (ka : list (pG2 P)) (kb : list (pG1 P)).
  Variables (kt : unitmod K) (ca : XA) (ct : list MT) (b : K) (a : list MA).

  Variables (ask : list bytes -> bytes) (know : list bytes -> openings) (keys : list bytes -> comb P)
    (out : list bytes -> tssm_proof P MA (mod_carrier XA) (identity_output MT)) (opening : list bytes -> comb P).
  Definition point_input1 (m : nat) (c : K) (ck : pG2 P) : bytes := usize_be m ++ fser c ++ mser ck.
  Definition knows_keys1 : Prop :=
    (forall w m c ck, ask w = point_input1 m c ck -> comb_g2 s (keys w) = ck) /\
    (forall w, ts_final_ck_proof (out w) = comb_g2 s (opening w)).

  Definition relation_of1 (w : list bytes) : option (relation P) :=
    match round_times fuel ask w f0 (rev (gp_steps (ts_gipa (out w)))) with
    | Some ts =>
      let cs := map (fun t => challenge_of (nth t w [])) ts in
      match point_time K ask w fuel 0 (fser (last cs f0) ++ mser (ts_final_ck (out w))) with
      | Some t => match f_rand (nth t w []) with Some z => tssm_relation n (keys (firstn t w)) (opening w) cs z | None => None end
      | None => None
      end
    | None => None
    end.
  Definition relation_found1 (w : list bytes) : Prop := match relation_of1 w with Some rel => vanishes n alpha beta rel | None => False end.

  (** everything [TIPAWithSSM::verify_with_structured_scalar_message] hashes *)
  Definition tssm_hashed (D : bytes -> bytes) (proof : tssm_proof P MA (mod_carrier XA) (identity_output MT)) (q : bytes) : Prop :=
    gipa_hashed D fuel f0 (rev (gp_steps (ts_gipa proof))) q \/
    exists cs, round_challenges D fuel f0 (rev (gp_steps (ts_gipa proof))) cs /\
      point_hashed K D fuel (fser (last cs f0) ++ mser (ts_final_ck proof)) q.

  Definition tssm_fools (v : vsrs P) (w : list bytes) : Prop :=
    exists D, digest16 D /\ (forall t, t < length w -> D (ask (firstn t w)) = nth t w []) /\
      Forall ok_round (gp_steps (ts_gipa (out w))) /\ n = 2 ^ length (gp_steps (ts_gipa (out w))) /\
      tssm_verify LMC (identity MT) ip D fuel E v kt (ca, ct) b (out w) = Ok true /\
      (forall q, tssm_hashed D (out w) q -> exists t, t < length w /\ ask (firstn t w) = q) /\
      ~ collision_found1 LMC fuel ka ct a ask know (fun w => ts_gipa (out w)) w /\ ~ relation_found1 w.

  Hypotheses (Hn : 0 < n) (Hs : srs_ok s alpha beta n) (Hh : pr_h P <> m0).
  Hypothesis Hk : get_commitment_keys s = (ka, kb).

  Definition right_key1 (cs : list K) : pG2 P := key_poly (map finv (rev cs)) f1 beta *m pr_h P.
  Definition lucky_point1 (h : past) (ck : pG2 P) (e : comb P) (z : K) : Prop :=
    n = 2 ^ length h /\ comb_g2 s e <> right_key1 (map snd h) /\ exists o, tssm_relation n e o (map snd h) z = None.

  Lemma lucky_point1_few h ck e zs : NoDup zs -> (forall z, In z zs -> lucky_point1 h ck e z) -> length zs <= 2 * n - 2.
  Proof using Hs.
    clear Hn. intros Hz H. destruct (Nat.le_gt_cases (length zs) (2 * n - 2)) as [|Hl]; [assumption|exfalso].
    destruct zs as [|z0 zs0] eqn:Ez; [cbn in Hl; lia|]. rewrite <- Ez in *.
    destruct (H z0) as (Hlen & Hne & _); [rewrite Ez; apply in_eq|]. apply Hne. unfold right_key1.
    apply (g2_right s alpha beta n Hs _ _ _ zs); auto; [now rewrite map_length, rev_length, map_length|].
    intros z Hi. destruct (H z Hi) as (_ & _ & o & Ho). exists o. exact (side_relation_none InBeta _ _ _ _ _ Ho).
  Qed.

  Lemma point_input1_inj m m' c c' ck ck' : prefix_free (@fser K) -> prefix_free (@mser K (pG2 P)) ->
    point_input1 m c ck = point_input1 m' c' ck' -> c = c' /\ ck = ck'.
  Proof using.
    clear. intros HF H2. unfold point_input1. intros E. apply app_same_length in E as [_ E]; [|now rewrite !usize_be_length].
    apply HF in E as [-> E]. rewrite <- (app_nil_r (mser ck)), <- (app_nil_r (mser ck')) in E. apply H2 in E as [-> _]. auto.
  Qed.

  Hypothesis Ha : length a = n.
  Hypothesis Ea : dh_commit LMC ka a = Ok ca.
  Hypothesis Hfalse : ip a (powers n b) <> Ok (at_ ct 0).
  Hypothesis Hknow : knows_openings1 LMC (MT := MT) ka ask know.
  Hypothesis Hkeys : knows_keys1.

  Lemma key_length1 : length ka = n.
  Proof using Hk Hs Hn.
    destruct (C21_keys s alpha beta n Hn Hs) as [[ka1 [kb1 [E1 [L1 _]]]] _]. rewrite Hk in E1. now injection E1 as <- <-.
  Qed.

  Notation lucky := (becomes_right1 LMC th ka ct b a).
  Lemma tssm_fools_bad w Om : incl w Om -> tssm_fools (key_of alpha beta) w ->
    bad_last_somewhere f0 Om challenge_of ok_round pay ask know lucky w (f_rand (f := K)) (fun _ => True) point_input1 keys lucky_point1.
  Proof using Ha Ea Hfalse Hknow Hkeys LA LI Hn Hs Hh Hk.
    intros Ow (D & H16 & HD & Hok & Hlen & Hv & Hq & Hno & Hnr). pose proof key_length1 as La.
    destruct (proj1 (C54_tssm_accepts_iff D fuel E H16 _ _ _ _ _ _ _ _ _) Hv) as (cs & z & v & Hch & _ & Hz & O1 & _).
    set (steps := rev (gp_steps (ts_gipa (out w)))) in *.
    destruct (round_times_found fuel ask w D HD steps f0 cs Hch) as (ts & Ets & Hl & Em); [now apply Forall_rev|intros q H; apply Hq; now left|].
    pose proof (linked_length _ _ _ _ _ _ _ _ _ Hl) as El.
    destruct (point_time_found K ask w D fuel _ z HD Hz) as (m & t & Et & Ht & Eq & Ez).
    { intros q H. apply Hq. right. exists cs. auto. }
    assert (Hcl : length cs = length (gp_steps (ts_gipa (out w)))) by (rewrite <- Em, map_length, <- El; apply rev_length).
    unfold relation_found1, relation_of1 in Hnr. fold steps in Hnr. rewrite Ets in Hnr. cbv zeta in Hnr. rewrite Em, Et, Ez in Hnr.
    destruct Hkeys as [HkA HkO]. pose proof (HkA (firstn t w) m (last cs f0) (ts_final_ck (out w)) Eq) as Ek.
    rewrite (HkO w), <- Ek in O1.
    destruct (tssm_relation n (keys (firstn t w)) (opening w) cs z) as [rel|] eqn:Er.
    { exfalso. apply Hnr. exact (g2_relation_ok s alpha beta n Hn Hs Hh _ _ _ _ rel O1 Er). }
    destruct (folded_keys_one s alpha beta ka kb n cs Hn Hs Hk) as [_ F1]; [congruence|].
    destruct (rounds_maps1 know w steps ts El) as [_ M2]. rewrite Em in M2.
    destruct (m_eq_dec _ _ (comb_g2 s (keys (firstn t w))) (right_key1 cs)) as [Hr|Hr].
    - apply bad_somewhere_last.
      refine (ssm_fools_bad LMC ip fA th LA LI fuel ka ca ct b a ask know (fun w => ts_gipa (out w)) _ Ea _ Hknow
        (fun D w => tssm_verify LMC (identity MT) ip D fuel E (key_of alpha beta) kt (ca, ct) b (out w) = Ok true /\
           length ka = 2 ^ length (gp_steps (ts_gipa (out w))) /\
           forall cs, round_challenges D fuel f0 (rev (gp_steps (ts_gipa (out w)))) cs -> ts_final_ck (out w) = folded_key ka (map finv cs))
        _ w Om Ow _); [congruence|congruence| |].
      + intros D' w' HD' (Hv' & Hl' & Hck). apply (C54_tssm_accepts_iff D' fuel E HD') in Hv' as (cs' & z' & v' & H1 & _ & _ & _ & H4 & H5 & _ & H6).
        rewrite (Hck cs' H1) in H5. exists cs', v'. auto.
      + exists D. split; [exact H16|]. split; [exact HD|]. split; [exact Hok|]. split; [|split; [intros q H; apply Hq; now left|exact Hno]].
        split; [exact Hv|]. split; [congruence|]. intros cs' Hch'. assert (cs' = cs) as -> by (eapply round_challenges_fun; eauto).
        rewrite <- Ek, Hr, F1. reflexivity.
    - apply (last_is_bad (f_eq_dec K) f0 Om challenge_of ok_round pay ask know lucky w Ow (f_rand (f := K)) (fun _ => True) point_input1 keys lucky_point1
               steps ts t m (ts_final_ck (out w)) z Hl Ht I); [|exact Ez|].
      + unfold answer. rewrite Em. exact Eq.
      + unfold lucky_point1. rewrite M2. split; [|split; [exact Hr|eauto]].
        transitivity (2 ^ length cs); [congruence|]. rewrite <- M2. now rewrite map_length.
  Qed.

  Variables (Om : list bytes) (share gamma : nat).
  Hypothesis NOm : NoDup Om.
  Hypothesis Hspread : challenges_spread K Om share.
  Hypothesis Hpoints : points_spread K Om gamma.
  Hypotheses (FF : prefix_free (@fser K)) (FA : prefix_free (@mser K XA)) (FT : prefix_free (@mser K MT)).
  Hypotheses (F2 : prefix_free (@mser K (pG2 P))).
  Variables (Q : nat) (L : list (list bytes)).
  Hypothesis NL : NoDup L.
  Hypothesis HL : forall w, In w L -> length w = Q /\ incl w Om /\ tssm_fools (key_of alpha beta) w.

  Lemma tssm_count : length L <= (share * (3 * Q + 2) + gamma * (2 * n - 2)) * Q * length Om ^ (Q - 1).
  Proof using All.
    apply (few_bad_any (list_eq_dec N.eq_dec) Om NOm (share * (3 * Q + 2) + gamma * (2 * n - 2)) Q
             (bad_last f0 Om challenge_of ok_round pay ask know lucky (f_rand (f := K)) (fun _ => True) point_input1 keys lucky_point1) L).
    - intros pre l Hp Hl Hbad. pose proof key_length1 as La.
      etransitivity; [apply (few_bad_last (f_eq_dec K) f0 Om challenge_of ok_round pay
                               (fun n n' v v' z z' => pay_inj (XB := fmod K) n n' v v' z z' FF FA FF FT) ask know share Hspread lucky 3
                               (fun h z r xs => becomes_right1_few LMC ip fA th LA LI ka ct b a h z r xs (eq_trans Ha (eq_sym La)))
                               (f_eq_dec K) (f_rand (f := K)) (fun _ => True) point_input1 keys
                               (fun n n' v v' f f' _ _ => point_input1_inj n n' v v' f f' FF F2) gamma Hpoints lucky_point1 (2 * n - 2) lucky_point1_few pre l Hl Hbad)|].
      rewrite Nat.add_assoc. apply Nat.add_le_mono_r. rewrite <- Nat.mul_add_distr_l. apply Nat.mul_le_mono_l. unfold bytes in *. lia.
    - exact NL.
    - intros w Hw. destruct (HL w Hw) as [H1 [H2 H3]]. split; [exact H1|]. split; [exact H2|]. exact (tssm_fools_bad w Om H2 H3).
  Qed.
End Tssm.

(** ** The statements *)
(** For a false statement (ca, cb, ct) about known vectors a, b, keys generated by [TIPA::setup] and shifted by r: of the M^Q
    sequences of answers to the prover's Q queries at most (share (3 Q + 2) + gamma (2 n - 2)) Q M^(Q-1) make it succeed. *)
Definition tipa_oracle_sound {R} {P : pairing} {MA MB MT XA XB : module (pK P)}
    (LMC : dhc R MA (pG2 P) (mod_carrier XA)) (RMC : dhc R MB (pG1 P) (mod_carrier XB)) (ip : list MA -> list MB -> res MT) : Prop :=
  pr_g P <> m0 -> pr_h P <> m0 ->
  forall fuel (rand : sampler R (pK P)) rng n s kt0 rng' ka kb v,
  tipa_setup (identity MT) rand rng n = Ok (s, kt0, rng') -> get_commitment_keys s = (ka, kb) -> get_verifier_key s = Ok v ->
  forall r kt ca cb (ct : list MT) a b, length a = n -> length b = n ->
  dh_commit LMC (shift_vec (finv r) ka) a = Ok ca -> dh_commit RMC kb b = Ok cb -> ip a b <> Ok (at_ ct 0) ->
  forall ask know keys out opening, knows_openings LMC RMC (MT := MT) (shift_vec (finv r) ka) kb ask know -> knows_keys s ask keys out opening ->
  forall Om share gamma, NoDup Om -> challenges_spread (pK P) Om share -> points_spread (pK P) Om gamma ->
  prefix_free (@fser (pK P)) -> prefix_free (@mser _ XA) -> prefix_free (@mser _ XB) -> prefix_free (@mser _ MT) ->
  prefix_free (@mser _ (pG1 P)) -> prefix_free (@mser _ (pG2 P)) ->
  forall Q L, NoDup L ->
  (forall w, In w L -> length w = Q /\ incl w Om /\
     tipa_fools LMC RMC ip fuel (fst (rand rng)) (fst (rand (snd (rand rng)))) n ka kb r kt ca cb ct a b ask know keys out opening v w) ->
  length L <= (share * (3 * Q + 2) + gamma * (2 * n - 2)) * Q * length Om ^ (Q - 1).

Theorem C103_tipa {R} {P : pairing} {MA MB MT XA XB : module (pK P)} (fA : pG2 P -> MA -> XA) (fB : pG1 P -> MB -> XB) (th : MA -> MB -> MT)
    (LMC : dhc R MA (pG2 P) (mod_carrier XA)) (RMC : dhc R MB (pG1 P) (mod_carrier XB)) (ip : list MA -> list MB -> res MT) :
  lin_commit LMC mid fA -> lin_commit RMC mid fB -> lin_ip ip th -> tipa_oracle_sound LMC RMC ip.
Proof.
  intros LA LB LI Hg Hh fuel rand rng n s kt0 rng' ka kb v Hset Hk Hv r kt ca cb ct a b Ha Hb Ea Eb Hf ask know keys out opening Hkn Hkk
    Om share gamma NOm Hs Hp FF FA FB FT F1 F2 Q L NL HL.
  destruct (C21_setup_structure _ _ _ _ _ _ _ Hset) as [Hn0 Hsrs].
  set (alpha := fst (rand rng)) in *. set (beta := fst (rand (snd (rand rng)))) in *.
  assert (Ev : v = key_of alpha beta) by (destruct (C21_keys s alpha beta n Hn0 Hsrs) as [_ E]; rewrite Hv in E; now injection E).
  rewrite Ev in HL.
  exact (tipa_count LMC RMC ip fA fB th LA LB LI fuel s alpha beta n ka kb r kt ca cb ct a b ask know keys out opening Hn0 Hsrs Hg Hh Hk Ha Hb Ea Eb Hf Hkn Hkk
    Om share gamma NOm Hs Hp FF FA FB FT F1 F2 Q L NL HL).
Qed.
Print Assumptions C103_tipa.

Theorem C103_pairing R (P : pairing) (E : penv) (r1 : sampler R (pG1 P)) (r2 : sampler R (pG2 P)) : 1 <= threads E ->
  tipa_oracle_sound (afgho_g1 P E r2) (afgho_g2 P E r1) (pairing_ip P E).
Proof. intros HE. exact (C103_tipa _ _ _ _ _ _ (afgho_g1_law P E HE r2) (afgho_g2_law P E HE r1) (pairing_ip_law P E HE)). Qed.
Print Assumptions C103_pairing.
Theorem C103_multiexp R (P : pairing) (E : penv) (r1 : sampler R (pG1 P)) (r2 : sampler R (pG2 P)) : 1 <= threads E ->
  tipa_oracle_sound (afgho_g1 P E r2) (pedersen (pG1 P) r1) (multiexp_ip (pG1 P)).
Proof. intros HE. exact (C103_tipa _ _ _ _ _ _ (afgho_g1_law P E HE r2) (pedersen_law _ r1) (multiexp_ip_law _)). Qed.
Print Assumptions C103_multiexp.
Theorem C103_scalar R (P : pairing) (E : penv) (r1 : sampler R (pG1 P)) (r2 : sampler R (pG2 P)) :
  tipa_oracle_sound (pedersen (pG2 P) r2) (pedersen (pG1 P) r1) (scalar_ip (K := pK P) E : list (fmod (pK P)) -> list (fmod (pK P)) -> res (fmod (pK P))).
Proof. exact (C103_tipa _ _ _ _ _ _ (pedersen_law _ r2) (pedersen_law _ r1) (scalar_ip_law E)). Qed.
Print Assumptions C103_scalar.

(** the same for a committed vector and the powers of b *)
Theorem C103_tipa_ssm {R} {P : pairing} {MA MT XA : module (pK P)} (fA : pG2 P -> MA -> XA) (th : MA -> fmod (pK P) -> MT)
    (LMC : dhc R MA (pG2 P) (mod_carrier XA)) (ip : list MA -> list (fmod (pK P)) -> res MT) :
  lin_commit LMC mid fA -> lin_ip ip th -> pr_h P <> m0 ->
  forall fuel E (rand : sampler R (pK P)) rng n s kt0 rng' ka kb v,
  tipa_setup (identity MT) rand rng n = Ok (s, kt0, rng') -> get_commitment_keys s = (ka, kb) -> get_verifier_key s = Ok v ->
  forall kt ca (ct : list MT) b a, length a = n -> dh_commit LMC ka a = Ok ca -> ip a (powers n b) <> Ok (at_ ct 0) ->
  forall ask know keys out opening, knows_openings1 LMC (MT := MT) ka ask know -> knows_keys1 s ask keys out opening ->
  forall Om share gamma, NoDup Om -> challenges_spread (pK P) Om share -> points_spread (pK P) Om gamma ->
  prefix_free (@fser (pK P)) -> prefix_free (@mser _ XA) -> prefix_free (@mser _ MT) -> prefix_free (@mser _ (pG2 P)) ->
  forall Q L, NoDup L ->
  (forall w, In w L -> length w = Q /\ incl w Om /\
     tssm_fools LMC ip fuel E (fst (rand rng)) (fst (rand (snd (rand rng)))) n ka kt ca ct b a ask know keys out opening v w) ->
  length L <= (share * (3 * Q + 2) + gamma * (2 * n - 2)) * Q * length Om ^ (Q - 1).
Proof.
  intros LA LI Hh fuel E rand rng n s kt0 rng' ka kb v Hset Hk Hv kt ca ct b a Ha Ea Hf ask know keys out opening Hkn Hkk
    Om share gamma NOm Hs Hp FF FA FT F2 Q L NL HL.
  destruct (C21_setup_structure _ _ _ _ _ _ _ Hset) as [Hn0 Hsrs].
  set (alpha := fst (rand rng)) in *. set (beta := fst (rand (snd (rand rng)))) in *.
  assert (Ev : v = key_of alpha beta) by (destruct (C21_keys s alpha beta n Hn0 Hsrs) as [_ Ex]; rewrite Hv in Ex; now injection Ex).
  rewrite Ev in HL.
  exact (tssm_count LMC ip fA th LA LI fuel E s alpha beta n ka kb kt ca ct b a ask know keys out opening Hn0 Hsrs Hh Hk Ha Ea Hf Hkn Hkk
    Om share gamma NOm Hs Hp FF FA FT F2 Q L NL HL).
Qed.
Print Assumptions C103_tipa_ssm.

(** ** Example: the vectors (2, 3) and (5, 7), whose inner product is 31, the claim 32, and the SRS with trapdoors 2 and 3. The prover
    sends 14 instead of the true cross term 15, is lucky if the challenge is 1, and then gives the right keys and openings. *)
Definition ex103_c1 : com3 (mod_carrier ZM) (mod_carrier ZM) (identity_output ZM) := (zq 3, zq 20, [zq 14]).
Definition ex103_c2 : com3 (mod_carrier ZM) (mod_carrier ZM) (identity_output ZM) := (zq 18, zq 7, [zq 14]).
Definition ex103_ask (w : list bytes) : bytes :=
  match w with [] => gipa_hash_input 0 (f0 : ZP) ex103_c1 ex103_c2 | _ => point_input (P := ZPair) 0 (f1 : ZP) (zq 10, zq 5) end.
Definition ex103_know (w : list bytes) : (list ZM * list ZM) * (list ZM * list ZM) :=
  ((zl [3; 0]%Z, zl [0; 2]%Z), (zl [0; 5]%Z, zl [7; 0]%Z)).
Definition ex103_keys (w : list bytes) : comb ZPair * comb ZPair := (ex97_key (zq 1), ex97_key (zq 1)).
Definition ex103_opening (w : list bytes) : comb ZPair * comb ZPair := (ex97_quot (zq 1) (zq 1), ex97_quot (zq 1) (zq 1)).
Definition ex103_out (w : list bytes) : tipa_proof ZPair ZM ZM (mod_carrier ZM) (mod_carrier ZM) (identity_output ZM) :=
  mk_tipa_proof (P := ZPair) (mk_gipa_proof (K := ZP) (MA := ZM) (MB := ZM) [(ex103_c1, ex103_c2)] (zq 5, zq 12)) (zq 10, zq 5) (zq 4, zq 3).
Definition ex103_w : list bytes := [ex101_digest 1; ex101_digest 1].

Lemma ex103_lengths n p (s : com3 (mod_carrier ZM) (mod_carrier ZM) (identity_output ZM) * com3 (mod_carrier ZM) (mod_carrier ZM) (identity_output ZM)) m c ck :
  gipa_hash_input n (p : ZP) (fst s) (snd s) <> point_input (P := ZPair) m c ck.
Proof.
  intros E. apply (f_equal (@length N)) in E. destruct s as [[[a1 b1] t1] [[a2 b2] t2]]. unfold point_input, gipa_hash_input in E. cbn [fst snd] in E.
  rewrite !app_length, !usize_be_length in E. cbn in E. lia.
Qed.

Example C103_example_fools :
  tipa_fools (P := ZPair) (afgho_g1 ZPair ex_env1 ex_rand) (afgho_g2 ZPair ex_env1 ex_rand) (pairing_ip ZPair ex_env1) 5 (zq 2) (zq 3) 2
    (zl [1; 9]%Z) (zl [1; 4]%Z) (zq 1) tt (zq 29) (zq 33) [zq 32] (zl [2; 3]%Z) (zl [5; 7]%Z) ex103_ask ex103_know ex103_keys ex103_out ex103_opening
    ex96_vsrs ex103_w.
Proof.
  exists (fun _ => ex101_digest 1). split; [intros q; cbn; lia|].
  split; [intros [|[|t]] Ht; [reflexivity|reflexivity|cbn in Ht; lia]|].
  split; [repeat constructor|]. split; [reflexivity|]. split; [reflexivity|]. split; [|split].
  - intros q [Hq|(cs & Hc & n & Hn & Hno & ->)].
    + exists 0. split; [cbn; lia|].
      inversion Hq as [prev s steps n Hn Hno|prev s steps n v q' Hn Hv Hq']; subst.
      * destruct n as [|n]; [reflexivity|]. specialize (Hno 0 ltac:(lia)). discriminate.
      * inversion Hq'.
    + exists 1. split; [cbn; lia|]. destruct n as [|n]; [|specialize (Hno 0 ltac:(lia)); discriminate].
      assert (Hc' : round_challenges (K := ZP) (fun _ => ex101_digest 1) 5 (f0 : ZP) (rev (gp_steps (tp_gipa (ex103_out ex103_w)))) [zq 1 : ZP]).
      { cbn [round_challenges rev app gp_steps tp_gipa ex103_out]. split; [|exact I]. exists 0, (zq 1). split; [lia|]. split; [|reflexivity].
        split; [reflexivity|intros i Hi; lia]. }
      assert (cs = [zq 1 : ZP]) as ->; [|reflexivity].
      eapply round_challenges_fun; [|exact Hc'|exact Hc]. intros q. cbn. lia.
  - unfold collision_found.
    match goal with |- context [match ?x with _ => _ end] =>
      assert (E : x = Some ((zl [5; 5]%Z, zl [5; 5]%Z), (zl [12; 12]%Z, zl [12; 12]%Z))) by reflexivity end.
    rewrite E. intros [[H _]|[H _]]; now apply H.
  - unfold relation_found. match goal with |- context [match ?x with _ => _ end] => assert (E : x = None) by reflexivity end. rewrite E. auto.
Qed.
Example C103_example_hypotheses :
  pr_g ZPair <> m0 /\ pr_h ZPair <> m0 /\ ex_srs 2 = Ok ex97_s /\ get_commitment_keys ex97_s = (zl [1; 9]%Z, zl [1; 4]%Z) /\
  get_verifier_key ex97_s = Ok ex96_vsrs /\ shift_vec (finv (f1 : ZP)) (zl [1; 9]%Z : list (pG2 ZPair)) = zl [1; 9]%Z /\
  dh_commit (ex_L ex_env1) (zl [1; 9]%Z) (zl [2; 3]%Z) = Ok (zq 29) /\ dh_commit (ex_R ex_env1) (zl [1; 4]%Z) (zl [5; 7]%Z) = Ok (zq 33) /\
  pairing_ip ZPair ex_env1 (zl [2; 3]%Z) (zl [5; 7]%Z) <> Ok (zq 32) /\
  knows_openings (ex_L ex_env1) (ex_R ex_env1) (MT := ZM) (zl [1; 9]%Z) (zl [1; 4]%Z) ex103_ask ex103_know /\
  knows_keys (P := ZPair) (MA := ZM) (MB := ZM) (MT := ZM) (XA := ZM) (XB := ZM) ex97_s ex103_ask ex103_keys ex103_out ex103_opening /\
  points_spread ZP ex101_Om 1.
Proof.
  assert (F : prefix_free (@fser ZP)) by exact zp_ser_prefix_free. assert (G : prefix_free (@mser ZP ZM)) by exact zp_ser_prefix_free.
  split; [discriminate|]. split; [discriminate|]. split; [reflexivity|]. split; [reflexivity|]. split; [reflexivity|]. split; [reflexivity|].
  split; [reflexivity|]. split; [reflexivity|]. split; [discriminate|]. split; [|split; [split|]].
  - intros w n p s Hs E. destruct w as [|d w]; [|exfalso; exact (ex103_lengths _ _ _ _ _ _ (eq_sym E))]. symmetry in E.
    apply (pay_inj (XA := ZM) (XB := ZM) (MT := ZM) n 0 p f0 s (ex103_c1, ex103_c2) F G G G Hs) in E as [_ ->]; [|split; reflexivity].
    repeat split; reflexivity.
  - intros w m c ck E. destruct w as [|d w]; [exfalso; exact (ex103_lengths 0 f0 (ex103_c1, ex103_c2) _ _ _ E)|].
    apply (point_input_inj (P := ZPair)) in E as [_ <-]; [reflexivity|exact F|exact G|exact G].
  - reflexivity.
  - intros z l Hl H. destruct l as [|d [|d' l]]; [cbn; lia|cbn; lia|]. exfalso.
    destruct (H d (in_eq _ _)) as [I1 E1]. destruct (H d') as [I2 E2]; [right; now left|].
    inversion Hl as [|? ? Hne _]; subst. apply Hne. left.
    apply in_map_iff in I1 as [i [<- N1]]. apply in_map_iff in I2 as [j [<- N2]]. apply in_seq in N1, N2. f_equal.
    assert (Hv : forall i, 1 <= i < 101 -> f_rand (f := ZP) (ex101_digest i) = Some (zp_of (Z.of_nat i))).
    { intros k Hk. transitivity (Some (zp_of ((0 + Z.of_N (N.of_nat k)) mod zp_p))); [reflexivity|].
      rewrite nat_N_Z, Z.add_0_l, Z.mod_small by (unfold zp_p; lia). reflexivity. }
    rewrite Hv in E1, E2 by lia. rewrite <- E1 in E2. assert (E3 : zp_of (Z.of_nat j) = zp_of (Z.of_nat i)) by congruence.
    apply (f_equal zp_val) in E3. rewrite !zp_val_of, !Z.mod_small in E3 by (unfold zp_p; lia). lia.
Qed.

(** the same with the powers of 4 instead of (5, 7): the inner product is 14, the claim 15 *)
Definition ex103_s1 : com3 (mod_carrier ZM) (mod_carrier (fmod ZP)) (identity_output ZM) := (zq 3, zq 0, [zq 2]).
Definition ex103_s2 : com3 (mod_carrier ZM) (mod_carrier (fmod ZP)) (identity_output ZM) := (zq 18, zq 0, [zq 8]).
Definition ex103_ask1 (w : list bytes) : bytes :=
  match w with [] => gipa_hash_input 0 (f0 : ZP) ex103_s1 ex103_s2 | _ => point_input1 (P := ZPair) 0 (f1 : ZP) (zq 10) end.
Definition ex103_know1 (w : list bytes) : list ZM * list ZM := (zl [3; 0]%Z, zl [0; 2]%Z).
Definition ex103_keys1 (w : list bytes) : comb ZPair := ex97_key (zq 1).
Definition ex103_opening1 (w : list bytes) : comb ZPair := ex97_quot (zq 1) (zq 1).
Definition ex103_out1 (w : list bytes) : tssm_proof ZPair ZM (mod_carrier ZM) (identity_output ZM) :=
  mk_tssm_proof (P := ZPair) (mk_gipa_proof (K := ZP) (MA := ZM) (MB := fmod ZP) [(ex103_s1, ex103_s2)] (zq 5, zq 5)) (zq 10) (zq 4).
Example C103_example_fools_ssm :
  tssm_fools (P := ZPair) (afgho_g1 ZPair ex_env1 ex_rand) (multiexp_ip (pG1 ZPair)) 5 ex_env1 (zq 2) (zq 3) 2
    (zl [1; 9]%Z) tt (zq 29) [zq 15] (zq 4) (zl [2; 3]%Z) ex103_ask1 ex103_know1 ex103_keys1 ex103_out1 ex103_opening1 ex96_vsrs ex103_w.
Proof.
  exists (fun _ => ex101_digest 1). split; [intros q; cbn; lia|].
  split; [intros [|[|t]] Ht; [reflexivity|reflexivity|cbn in Ht; lia]|].
  split; [repeat constructor|]. split; [reflexivity|]. split; [reflexivity|]. split; [|split].
  - intros q [Hq|(cs & Hc & n & Hn & Hno & ->)].
    + exists 0. split; [cbn; lia|].
      inversion Hq as [prev s steps n Hn Hno|prev s steps n v q' Hn Hv Hq']; subst.
      * destruct n as [|n]; [reflexivity|]. specialize (Hno 0 ltac:(lia)). discriminate.
      * inversion Hq'.
    + exists 1. split; [cbn; lia|]. destruct n as [|n]; [|specialize (Hno 0 ltac:(lia)); discriminate].
      assert (Hc' : round_challenges (K := ZP) (fun _ => ex101_digest 1) 5 (f0 : ZP) (rev (gp_steps (ts_gipa (ex103_out1 ex103_w)))) [zq 1 : ZP]).
      { cbn [round_challenges rev app gp_steps ts_gipa ex103_out1]. split; [|exact I]. exists 0, (zq 1). split; [lia|]. split; [|reflexivity].
        split; [reflexivity|intros i Hi; lia]. }
      assert (cs = [zq 1 : ZP]) as ->; [|reflexivity].
      eapply round_challenges_fun; [|exact Hc'|exact Hc]. intros q. cbn. lia.
  - unfold collision_found1.
    match goal with |- context [match ?x with _ => _ end] => assert (E : x = Some (zl [5; 5]%Z, zl [5; 5]%Z)) by reflexivity end.
    rewrite E. intros [H _]. now apply H.
  - unfold relation_found1. match goal with |- context [match ?x with _ => _ end] => assert (E : x = None) by reflexivity end. rewrite E. auto.
Qed.

(** Property C102: GIPA and TIPA with a structured scalar message, with the hash function as a random oracle. *)
Require Import List Arith NArith ZArith Lia Bool Field.
Import ListNotations.
Require Import Verif.Outcome Verif.Algebra Verif.Zp Verif.Rust Verif.InnerProducts Verif.Commitments
  Verif.Gipa Verif.Poly Verif.Tipa Verif.Ssm Verif.Spec Verif.ListFacts Verif.RustFacts Verif.InnerProductFacts Verif.CommitFacts
  Verif.GipaFacts Verif.GipaComplete Verif.GipaTop Verif.SsmFacts Verif.GipaAttack Verif.SerFacts Verif.KeyFacts Verif.PropsBase Verif.PropsGipa
  Verif.PropsTipa Verif.PropsVerify Verif.Oracle Verif.OracleValues Verif.Rounds Verif.PropsSpecial Verif.PropsGipaOracle.

Section Round1.
  Context {K : field} {MA MT : module K} (th : MA -> fmod K -> MT) (Hth : bilinear th).
  Add Field KfRound1 : (f_theory K).

  Lemma folded_powers_snoc (cs : list K) c (b : K) :
    folded_powers (cs ++ [c]) b = (f1 +f finv c *f b) *f folded_powers cs (b *f b).
  Proof using.
    unfold folded_powers. rewrite rev_app_distr, app_length. cbn [rev app length].
    replace (length cs + 1) with (S (length cs)) by lia. rewrite fprod_S_l. f_equal.
    - unfold fat. cbn [nth Nat.pow fpow]. ring.
    - apply fprod_ext. intros j Hj. unfold fat. cbn [nth]. f_equal. f_equal. replace (b *f b) with (fpow b 2) by (cbn [fpow]; ring).
      rewrite <- fpow_mul. f_equal.
  Qed.

  (** after the challenges [cs] the vector [A] (an opening for the whole key) is an opening for the folded key with inner product [t]
      with the folded powers of [b] *)
  Definition right1 (k : nat) (b : K) (cs : list K) (A : list MA) (t : MT) : Prop :=
    fits k (map finv cs) A /\
    t = big (2 ^ (k - length cs)) (fun i => th (at_ A i) (folded_powers cs (fpow b (2 ^ (k - length cs))) *f fpow b i)).

  Theorem round_right1 k b cs A1 A A2 t1 t t2 (l : list K) : NoDup l -> 4 <= length l -> length cs < k ->
    length A1 = 2 ^ k -> length A = 2 ^ k -> length A2 = 2 ^ k ->
    (forall c, In c l -> c <> f0 /\ right1 k b (cs ++ [c]) (fold3 c A1 A A2) (c *m t1 +m t +m finv c *m t2)) ->
    right1 k b cs A t.
  Proof using Hth.
    intros Hn Hl Hk LA1 LA LA2 H.
    set (h := 2 ^ (k - 1 - length cs)).
    assert (Eh : 2 ^ (k - length cs) = h + h) by (unfold h; replace (k - length cs) with (S (k - 1 - length cs)) by lia; cbn [Nat.pow]; lia).
    assert (Hh : h + h <= 2 ^ k) by (rewrite <- Eh; apply Nat.pow_le_mono_r; lia).
    assert (HcA : forall c, In c l -> c <> f0 /\ fits k (map finv cs) (fold3 c A1 A A2) /\
                    forall i, i < h -> at_ (fold3 c A1 A A2) (h + i) = finv c *m at_ (fold3 c A1 A A2) i).
    { intros c Hc. destruct (H c Hc) as [H0 [Hf _]]. split; [exact H0|]. rewrite map_app in Hf. cbn [map] in Hf. apply fits_snoc in Hf. rewrite map_length in Hf. exact Hf. }
    assert (HA : forall i, i < h -> at_ A2 i = m0 /\ at_ A2 (h + i) = at_ A i /\ at_ A1 i = at_ A (h + i) /\ at_ A1 (h + i) = m0).
    { intros i Hi.
      destruct (four_terms (m0 -m at_ A2 i) (at_ A2 (h + i) -m at_ A i) (at_ A (h + i) -m at_ A1 i) (at_ A1 (h + i)) l Hn Hl) as (E1 & E2 & E3 & E4).
      { intros c Hc. destruct (HcA c Hc) as [H0 [_ Hf]]. split; [exact H0|]. specialize (Hf i Hi). rewrite !(at_fold3 c A1 A A2 (2 ^ k)) in Hf by (auto; lia).
        apply (proj2 (msub_iff _ _)) in Hf. apply (f_equal (mscale (c *f c))) in Hf. rewrite mscale_0_r in Hf. etransitivity; [|exact Hf]. module_norm; field; exact H0. }
      apply (proj1 (msub_iff _ _)) in E1, E2, E3. refine (conj _ (conj _ (conj _ _))); congruence. }
    split.
    - apply (fits_three k (map finv cs) A1 A A2 l Hn); auto; [lia|now rewrite map_length|]. intros c Hc. destruct (HcA c Hc) as [H0 [Hf _]]. auto.
    - apply msub_iff. rewrite Eh, big_split. set (f := folded_powers cs (fpow b (h + h))).
      set (F := fun u v => big h (fun i => th (at_ A (u + i)) (f *f fpow b (v + i)))).
      change (big h (fun i => th (at_ A i) (f *f fpow b i))) with (F 0 0).
      change (big h (fun i => th (at_ A (h + i)) (f *f fpow b (h + i)))) with (F h h).
      apply (three_terms (t1 -m F h 0) (t -m (F 0 0 +m F h h)) (t2 -m F 0 h) l Hn); [lia|].
      intros c Hc. destruct (H c Hc) as [H0 [_ Ht]]. split; [exact H0|].
      rewrite app_length in Ht. cbn [length] in Ht. replace (k - (length cs + 1)) with (k - 1 - length cs) in Ht by lia. fold h in Ht.
      rewrite folded_powers_snoc, <- fpow_add in Ht. fold f in Ht.
      assert (Ef : big h (fun i => th (at_ (fold3 c A1 A A2) i) ((f1 +f finv c *f fpow b h) *f f *f fpow b i)) = c *m F h 0 +m (F 0 0 +m F h h) +m finv c *m F 0 h).
      { unfold F. rewrite <- !big_scale, <- !big_add. apply big_ext. intros i Hi. cbn [Nat.add].
        rewrite (at_fold3 c A1 A A2 (2 ^ k)) by (auto; lia).
        destruct (HA i Hi) as (E1 & _ & E3 & _). rewrite E1, E3. rewrite !mscale_0_r, madd_0_r.
        assert (Es : forall (x : MA) (u v : K), th x (u *f v) = u *m th x v) by (intros x u v; exact (bil_scale_r _ Hth u x v)).
        assert (Ea : forall (x : MA) (u v : K), th x (u +f v) = th x u +m th x v) by (intros x u v; exact (bil_add_r _ Hth x u v)).
        rewrite fpow_add. replace ((f1 +f finv c *f fpow b h) *f f *f fpow b i) with (((f1 +f finv c *f fpow b h) *f f *f fpow b i) *f f1) by ring.
        replace (f *f fpow b i) with ((f *f fpow b i) *f f1) by ring. replace (f *f (fpow b h *f fpow b i)) with ((f *f (fpow b h *f fpow b i)) *f f1) by ring.
        rewrite !(bil_add_l _ Hth), !(bil_scale_l _ Hth), !Es. module_norm; field; exact H0. }
      rewrite Ef in Ht. apply (proj2 (msub_iff _ _)) in Ht. etransitivity; [|exact Ht]. module_norm; ring.
  Qed.
End Round1.

Section C102.
  Context {R : Type} {K : field} {MA MT KA XA : module K}.
  Context (LMC : dhc R MA KA (mod_carrier XA)) (ip : list MA -> list (fmod K) -> res MT).
  Context (fA : KA -> MA -> XA) (th : MA -> fmod K -> MT).
  Hypothesis LA : lin_commit LMC mid fA.
  Hypothesis LI : lin_ip ip th.
  Notation com := (com3 (mod_carrier XA) (mod_carrier (fmod K)) (identity_output MT)).
  Notation step := (com * com)%type.
  (** openings of the commitments to A in the com_1 and com_2 of a round *)
  Notation openings := (list MA * list MA)%type.
  Notation past := (list (step * openings * K)).
  Variable fuel : nat.
  Add Field KfC102 : (f_theory K).
  Variables (ka : list KA) (ca : XA) (ct : list MT) (b : K) (a : list MA).

  Definition opens1 (s : step) (e : openings) : Prop :=
    (length (fst e) = length ka /\ dh_commit LMC ka (fst e) = Ok (grp_a (fst s))) /\
    (length (snd e) = length ka /\ dh_commit LMC ka (snd e) = Ok (grp_a (snd s))).

  (** the prover, as in C101 *)
  Variables (ask : list bytes -> bytes) (know : list bytes -> openings)
    (out : list bytes -> gssm_proof MA (mod_carrier XA) (identity_output MT)).
  Definition knows_openings1 : Prop :=
    forall w n p (s : step), ok_round s -> ask w = gipa_hash_input n p (fst s) (snd s) -> opens1 s (know w).

  (** opening and claimed value after the rounds [h] *)
  Definition next1 (x : list MA * MT) (y : step * openings * K) : list MA * MT :=
    let '(s, e, c) := y in
    (fold3 c (fst e) (fst x) (snd e), c *m at_ (com_vec (fst s)) 0 +m snd x +m finv c *m at_ (com_vec (snd s)) 0).
  Definition after1 (h : past) : list MA * MT := fold_left next1 h (a, at_ ct 0).

  (** the program that looks for two openings of one commitment *)
  Definition two_openings1 (w : list bytes) : option (list MA * list MA) :=
    match round_times fuel ask w f0 (rev (gp_steps (out w))) with
    | Some ts =>
      let cs := map (fun t => challenge_of (nth t w [])) ts in
      Some (fst (after1 (rounds challenge_of know w (rev (gp_steps (out w))) ts)), spread_out (map finv cs) (fst (gp_base (out w))))
    | None => None
    end.
  Definition collision_found1 (w : list bytes) : Prop :=
    match two_openings1 w with Some (A, A') => collides LMC ka A A' | None => False end.

  (** [accepted D w]: the verifier accepts with the hash function D *)
  Definition ssm_fools (accepted : (bytes -> bytes) -> list bytes -> Prop) (w : list bytes) : Prop :=
    exists D, digest16 D /\ (forall t, t < length w -> D (ask (firstn t w)) = nth t w []) /\
      Forall ok_round (gp_steps (out w)) /\ accepted D w /\
      (forall q, gipa_hashed D fuel f0 (rev (gp_steps (out w))) q -> exists t, t < length w /\ ask (firstn t w) = q) /\
      ~ collision_found1 w.

  (** what an accepting verifier has checked *)
  Definition ssm_checked (D : bytes -> bytes) (proof : gssm_proof MA (mod_carrier XA) (identity_output MT)) : Prop :=
    exists cs v, round_challenges D fuel f0 (rev (gp_steps proof)) cs /\ length ka = 2 ^ length (gp_steps proof) /\
      dh_commit LMC [folded_key ka (map finv cs)] [fst (gp_base proof)] = Ok (folded grp_a ca proof cs) /\
      ip [fst (gp_base proof)] [folded_powers cs b] = Ok v /\
      v = folded (fun c => at_ (com_vec c) 0) (at_ ct 0) proof cs.

  Definition opened1 (h : past) : Prop := Forall (fun y => opens1 (fst (fst y)) (snd (fst y))) h.

  Lemma after1_commit (h : past) : forall x, opened1 h -> length (fst x) = length ka ->
    length (fst (fold_left next1 h x)) = length ka /\
    dot fA ka (fst (fold_left next1 h x)) = cfold1 (O := mod_carrier XA) grp_a (dot fA ka (fst x)) (map (fun y => fst (fst y)) h) (map snd h) /\
    snd (fold_left next1 h x) = cfold1 (O := mod_carrier MT) (fun c : com => at_ (com_vec c) 0) (snd x) (map (fun y => fst (fst y)) h) (map snd h).
  Proof using LA.
    induction h as [|[[s [A1 A2]] c] h IH]; intros [A t] Ho HA; [cbn; auto|].
    inversion Ho as [|? ? Hs Ho']; subst. cbn [fst snd] in Hs. destruct Hs as [[LA1 EA1] [LA2 EA2]]. cbn [fst snd] in LA1, EA1, LA2, EA2.
    cbn [fold_left map fst snd cfold1 next1] in *. destruct (IH (fold3 c A1 A A2, c *m at_ (com_vec (fst s)) 0 +m t +m finv c *m at_ (com_vec (snd s)) 0) Ho') as (G1 & G2 & G3).
    { cbn [fst]. now rewrite fold3_length. }
    split; [exact G1|]. split; [|exact G3]. etransitivity; [exact G2|]. f_equal. cbn [fst].
    rewrite (lc_commit _ _ _ LA) in EA1, EA2 by congruence. injection EA1 as <-. injection EA2 as <-.
    pose proof (lc_bil _ _ _ LA) as BA. unfold fold3. rewrite !dot_vadd_r, !dot_vscale_r by (rewrite ?vadd_length, ?vscale_length; auto; congruence). reflexivity.
  Qed.
  Lemma after1_snoc (h : past) y : after1 (h ++ [y]) = next1 (after1 h) y.
  Proof using. unfold after1. now rewrite fold_left_app. Qed.

  Definition right_after1 (h : past) : Prop := right1 th (Nat.log2 (length ka)) b (map snd h) (fst (after1 h)) (snd (after1 h)).
  Definition becomes_right1 (h : past) (s : step) (e : openings) (c : K) : Prop :=
    (exists k, length ka = 2 ^ k /\ length h < k) /\ opened1 h /\ opens1 s e /\ ~ right_after1 h /\ right_after1 (h ++ [(s, e, c)]).

  Lemma becomes_right1_few h s e xs : length a = length ka ->
    NoDup xs -> (forall x, In x xs -> x <> f0 /\ becomes_right1 h s e x) -> length xs <= 3.
  Proof using LA LI.
    intros Ha Hn H. destruct (Nat.le_gt_cases (length xs) 3) as [|Hl]; [assumption|exfalso].
    destruct xs as [|x0 xs0] eqn:Ex; [cbn in Hl; lia|]. rewrite <- Ex in *.
    destruct (H x0) as [_ ((k & Hka & Hk) & Ho & Hs & Hw & _)]; [rewrite Ex; apply in_eq|]. apply Hw.
    destruct (after1_commit h (a, at_ ct 0) Ho Ha) as [HA _]. fold (after1 h) in HA.
    destruct e as [A1 A2]. destruct Hs as [[LA1 _] [LA2 _]]. cbn [fst snd] in LA1, LA2. unfold right_after1. rewrite Hka, Nat.log2_pow2 by lia.
    apply (round_right1 th (li_bil _ _ LI) k b (map snd h) A1 (fst (after1 h)) A2 (at_ (com_vec (fst s)) 0) _ (at_ (com_vec (snd s)) 0) xs Hn);
      first [exact Hl|rewrite map_length; exact Hk|congruence|idtac].
    intros x Hx. destruct (H x Hx) as [H0 (_ & _ & _ & _ & Hr)]. split; [exact H0|]. unfold right_after1 in Hr.
    rewrite after1_snoc, map_app, Hka, Nat.log2_pow2 in Hr by lia. exact Hr.
  Qed.
  Lemma right_after1_dec h : {right_after1 h} + {~ right_after1 h}.
  Proof using.
    clear. unfold right_after1, right1.
    destruct (fits_dec (Nat.log2 (length ka)) (map finv (map snd h)) (fst (after1 h))) as [H1|H1]; [|right; tauto].
    match goal with |- {_ /\ ?x = ?y} + {_} => destruct (m_eq_dec K MT x y) as [H3|H3]; [left; auto|right; tauto] end.
  Qed.

  Section Answers.
    Variables (w : list bytes).
    Lemma linked_opened1 steps : knows_openings1 -> forall prev ts, linked f0 challenge_of ok_round pay ask w prev steps ts ->
      opened1 (rounds challenge_of know w steps ts).
    Proof using.
      clear. intros Hk. induction steps as [|s steps IH]; intros prev [|t ts] Hl; try (constructor; fail).
      destruct Hl as (Ht & Hs & [n Hn] & _ & Hl). cbn. constructor; [|now apply (IH _ _ Hl)].
      cbn [fst snd]. now apply (Hk _ n prev).
    Qed.
    Lemma rounds_maps1 (steps : list step) : forall ts, length steps = length ts ->
      map (fun y => fst (fst y)) (rounds (challenge_of (K := K)) know w steps ts) = steps /\
      map snd (rounds (challenge_of (K := K)) know w steps ts) = map (fun t => challenge_of (K := K) (nth t w [])) ts.
    Proof using.
      clear. induction steps as [|s steps IH]; intros [|t ts] Hl; try discriminate; [now split|].
      destruct (IH ts) as [E1 E2]; [now injection Hl|]. unfold rounds in *. cbn [combine map fst snd]. rewrite E1, E2. now split.
    Qed.
    Variable Om : list bytes.
    Hypothesis Ow : incl w Om.
    Lemma right_is_bad1 k steps : length ka = 2 ^ k -> knows_openings1 -> ~ right_after1 [] ->
      forall ts, length steps <= k -> linked f0 challenge_of ok_round pay ask w f0 steps ts -> right_after1 (rounds challenge_of know w steps ts) ->
      bad_somewhere f0 Om challenge_of ok_round pay ask know becomes_right1 w.
    Proof using Ow.
      intros Hka Hkn H0. induction steps as [|s steps IH] using rev_ind; intros ts Hk Hl Hr.
      - destruct ts; contradiction.
      - destruct ts as [|t ts _] using rev_ind; [destruct steps; contradiction|].
        pose proof (proj1 (linked_snoc _ _ _ _ _ _ _ _ _ _ _) Hl) as (Hl' & _). pose proof (linked_length _ _ _ _ _ _ _ _ _ Hl') as El.
        rewrite app_length in Hk. cbn [length] in Hk.
        destruct (right_after1_dec (rounds challenge_of know w steps ts)) as [Hy|Hy]; [apply (IH ts); auto; lia|].
        apply (hit_is_bad (f_eq_dec K) f0 Om challenge_of ok_round pay ask know becomes_right1 w Ow steps ts s t Hl).
        pose proof (linked_opened1 _ Hkn _ _ Hl) as Ho. rewrite (rounds_snoc _ _ _ _ _ _ _ El) in Hr, Ho.
        apply Forall_app in Ho as [Ho1 Ho2]. inversion Ho2 as [|? ? Ho3 _]; subst. cbn [fst snd] in Ho3.
        unfold becomes_right1. split; [exists k; split; [assumption|]|auto].
        unfold rounds. rewrite map_length, combine_length. lia.
    Qed.
  End Answers.

  Section Statement.
    Hypothesis Ha : length a = length ka.
    Hypothesis Ea : dh_commit LMC ka a = Ok ca.
    Hypothesis Hfalse : ip a (powers (length ka) b) <> Ok (at_ ct 0).
    Hypothesis Hknow : knows_openings1.
    Variable accepted : (bytes -> bytes) -> list bytes -> Prop.
    Hypothesis Hacc : forall D w, digest16 D -> accepted D w -> ssm_checked D (out w).

    Lemma first_claim_wrong1 k : length ka = 2 ^ k -> ~ right_after1 [].
    Proof using Ha Hfalse LI.
      intros Hka Hr. apply Hfalse. unfold right_after1, after1, right1 in Hr. cbn [fold_left map length fst snd] in Hr.
      destruct Hr as [_ ->]. rewrite Nat.sub_0_r, Hka, Nat.log2_pow2 by lia.
      assert (Hl : length (powers (2 ^ k) b) = 2 ^ k) by apply powers_length'.
      rewrite (li_ip _ _ LI) by congruence. f_equal. rewrite dot_big by congruence. rewrite Ha, Hka. apply big_ext. intros i Hi. f_equal.
      transitivity (fpow b i).
      - unfold at_, powers. refine (eq_trans (nth_indep _ _ (fpow b 0) _) _); [rewrite map_length, seq_length; exact Hi|].
        refine (eq_trans (map_nth (fpow b) _ _ _) _). now rewrite seq_nth by exact Hi.
      - change (fpow b i = f1 *f fpow b i :> K). ring.
    Qed.

    Lemma ssm_fools_bad w Om : incl w Om -> ssm_fools accepted w ->
      bad_somewhere f0 Om challenge_of ok_round pay ask know becomes_right1 w.
    Proof using Ha Ea Hfalse Hknow Hacc LA LI.
      intros Ow (D & H16 & HD & Hok & Hv & Hq & Hno).
      destruct (Hacc D w H16 Hv) as (cs & v & Hch & Hka & E1 & Ev & E3).
      set (steps := rev (gp_steps (out w))) in *.
      destruct (round_times_found fuel ask w D HD steps f0 cs Hch) as (ts & Ets & Hl & Em); [now apply Forall_rev|exact Hq|].
      pose proof (linked_length _ _ _ _ _ _ _ _ _ Hl) as El. pose proof (linked_opened1 w steps Hknow _ _ Hl) as Ho.
      assert (Hcl : length cs = length (gp_steps (out w))) by (rewrite <- Em, map_length, <- El; apply rev_length).
      set (k := length (gp_steps (out w))) in *.
      apply (right_is_bad1 w Om Ow k steps Hka Hknow (first_claim_wrong1 k Hka) ts); [unfold steps; now rewrite rev_length|exact Hl|].
      destruct (rounds_maps1 w steps ts El) as [M1 M2]. rewrite Em in M2.
      destruct (after1_commit _ (a, at_ ct 0) Ho Ha) as (LA' & CA & CT). fold (after1 (rounds challenge_of know w steps ts)) in LA', CA, CT.
      unfold collision_found1, two_openings1 in Hno. fold steps in Hno. rewrite Ets, Em in Hno. unfold right_after1.
      rewrite M1, M2 in CA. rewrite M1, M2 in CT. rewrite M2. destruct (after1 (rounds challenge_of know w steps ts)) as [A t]. cbn [fst snd] in *.
      rewrite (lc_commit _ _ _ LA) in Ea by congruence. injection Ea as Ea'. unfold mid in Ea'. rewrite Ea' in CA.
      rewrite (lc_single _ _ _ _ _ LA) in E1. injection E1 as E1. unfold mid in E1.
      unfold steps in CA, CT. rewrite cfold1_folded in CA by exact Hcl. rewrite cfold1_folded in CT by exact Hcl.
      rewrite <- E1, <- dot_spread_out in CA by (rewrite ?map_length, ?Hcl; auto; apply (lc_bil _ _ _ LA)).
      set (SA := spread_out (map finv cs) (fst (gp_base (out w)))) in *. change (dot fA ka A = dot fA ka SA) in CA.
      assert (LSA : length SA = length ka) by (unfold SA; rewrite spread_out_length, map_length; congruence).
      destruct (list_eq_dec (m_eq_dec K MA) A SA) as [-> |Hne];
        [|exfalso; apply Hno; split; [exact Hne|]; do 2 (split; [assumption|]); exists (mid (dot fA ka A)); rewrite !(lc_commit _ _ _ LA) by congruence; split; congruence].
      rewrite Hka, Nat.log2_pow2 by lia. unfold right1.
      replace k with (length (map finv cs)) at 1 by (rewrite map_length; exact Hcl). split; [apply spread_out_fits|].
      rewrite CT, <- E3, <- Hcl, Nat.sub_diag. cbn [Nat.pow big fpow]. rewrite madd_0_l. unfold SA. rewrite at_spread_out_0.
      rewrite (lin_ip_single _ _ _ _ LI) in Ev. injection Ev as <-. f_equal.
      replace (b *f f1) with b by ring. symmetry. change (folded_powers cs b *f f1 = folded_powers cs b). ring.
    Qed.

    Variables (Om : list bytes) (beta : nat).
    Hypothesis NOm : NoDup Om.
    Hypothesis Hspread : challenges_spread K Om beta.
    Hypotheses (FF : prefix_free (@fser K)) (FA : prefix_free (@mser K XA)) (FT : prefix_free (@mser K MT)).
    Variables (Q : nat) (L : list (list bytes)).
    Hypothesis NL : NoDup L.
    Hypothesis HL : forall w, In w L -> length w = Q /\ incl w Om /\ ssm_fools accepted w.

    Lemma ssm_count : length L <= beta * (2 * Q + 2) * Q * length Om ^ (Q - 1).
    Proof using Ha Ea Hfalse Hknow Hacc LA LI NOm Hspread FF FA FT NL HL.
      apply (few_bad_any (list_eq_dec N.eq_dec) Om NOm (beta * (2 * Q + 2)) Q (bad f0 Om challenge_of ok_round pay ask know becomes_right1) L).
      - intros pre l Hp Hl Hbad.
        etransitivity; [apply (few_bad_answers (f_eq_dec K) f0 Om challenge_of ok_round pay
                                 (fun n n' v v' z z' => pay_inj (XB := fmod K) n n' v v' z z' FF FA FF FT) ask know beta Hspread becomes_right1 3
                                 (fun h z r xs => becomes_right1_few h z r xs Ha) pre l Hl Hbad)|].
        apply Nat.mul_le_mono_l. unfold bytes in *. lia.
      - exact NL.
      - intros w Hw. destruct (HL w Hw) as [H1 [H2 H3]]. split; [exact H1|]. split; [exact H2|]. exact (ssm_fools_bad w Om H2 H3).
    Qed.
  End Statement.
End C102.

(** The statement for a verifier [accepted]: for a false statement about a commitment to a known vector and the powers of b, of the
    M^Q sequences of answers to the prover's Q queries at most beta (2 Q + 2) Q M^(Q-1) make it succeed. *)
Definition ssm_oracle_sound {R} {K : field} {MA MT KA XA : module K}
    (LMC : dhc R MA KA (mod_carrier XA)) (ip : list MA -> list (fmod K) -> res MT) fuel ka ca (ct : list MT) (b : K) a
    (out : list bytes -> gssm_proof MA (mod_carrier XA) (identity_output MT)) (accepted : (bytes -> bytes) -> list bytes -> Prop) : Prop :=
  length a = length ka -> dh_commit LMC ka a = Ok ca -> ip a (powers (length ka) b) <> Ok (at_ ct 0) ->
  forall ask know, knows_openings1 LMC (MT := MT) ka ask know ->
  forall Om beta, NoDup Om -> challenges_spread K Om beta ->
  prefix_free (@fser K) -> prefix_free (@mser K XA) -> prefix_free (@mser K MT) ->
  forall Q L, NoDup L ->
  (forall w, In w L -> length w = Q /\ incl w Om /\ ssm_fools LMC fuel ka ct a ask know out accepted w) ->
  length L <= beta * (2 * Q + 2) * Q * length Om ^ (Q - 1).

Theorem C102_gipa_ssm {R} {K : field} {MA MT KA XA : module K} (fA : KA -> MA -> XA) (th : MA -> fmod K -> MT)
    (LMC : dhc R MA KA (mod_carrier XA)) (ip : list MA -> list (fmod K) -> res MT) :
  lin_commit LMC mid fA -> lin_ip ip th ->
  forall fuel E ka kt ca ct b a out,
  ssm_oracle_sound LMC ip fuel ka ca ct b a out
    (fun D w => gssm_verify LMC (identity MT) ip D fuel E (ka, kt) (ca, ct) b (out w) = Ok true).
Proof.
  intros LA LI fuel E ka kt ca ct b a out Ha Ea Hf ask know Hk Om beta NOm Hs FF FA FT Q L NL HL.
  apply (ssm_count LMC ip fA th LA LI fuel ka ca ct b a ask know out Ha Ea Hf Hk
    (fun D w => gssm_verify LMC (identity MT) ip D fuel E (ka, kt) (ca, ct) b (out w) = Ok true)); auto.
  intros D w HD Hv. apply (C55_gssm_accepts_iff D fuel E HD) in Hv as (cs & v & v' & H1 & H2 & H3 & _ & _ & H4 & _ & _ & H5).
  exists cs, v'. auto.
Qed.
Print Assumptions C102_gipa_ssm.

(** TIPA, for proofs that contain the right final key: a proof with another one has a wrong KZG opening *)
Theorem C102_tipa_ssm {R} {P : pairing} {MA MT XA : module (pK P)} (fA : pG2 P -> MA -> XA) (th : MA -> fmod (pK P) -> MT)
    (LMC : dhc R MA (pG2 P) (mod_carrier XA)) (ip : list MA -> list (fmod (pK P)) -> res MT) :
  lin_commit LMC mid fA -> lin_ip ip th ->
  forall fuel E alpha beta ka kt ca ct b a out,
  ssm_oracle_sound LMC ip fuel ka ca ct b a (fun w => ts_gipa (out w))
    (fun D w => tssm_verify LMC (identity MT) ip D fuel E (key_of alpha beta) kt (ca, ct) b (out w) = Ok true /\
       length ka = 2 ^ length (gp_steps (ts_gipa (out w))) /\
       forall cs, round_challenges D fuel f0 (rev (gp_steps (ts_gipa (out w)))) cs -> ts_final_ck (out w) = folded_key ka (map finv cs)).
Proof.
  intros LA LI fuel E alpha beta0 ka kt ca ct b a out Ha Ea Hf ask know Hk Om beta NOm Hs FF FA FT Q L NL HL.
  apply (ssm_count LMC ip fA th LA LI fuel ka ca ct b a ask know (fun w => ts_gipa (out w)) Ha Ea Hf Hk
    (fun D w => tssm_verify LMC (identity MT) ip D fuel E (key_of alpha beta0) kt (ca, ct) b (out w) = Ok true /\
       length ka = 2 ^ length (gp_steps (ts_gipa (out w))) /\
       forall cs, round_challenges D fuel f0 (rev (gp_steps (ts_gipa (out w)))) cs -> ts_final_ck (out w) = folded_key ka (map finv cs))); auto.
  intros D w HD (Hv & Hl & Hck). apply (C54_tssm_accepts_iff D fuel E HD) in Hv as (cs & z & v & H1 & _ & _ & _ & H4 & H5 & _ & H6).
  rewrite (Hck cs H1) in H5. exists cs, v. auto.
Qed.
Print Assumptions C102_tipa_ssm.

(** ** Example: the vector (2, 3) and the powers of 4, whose inner product is 14, and the claim 15; lucky if the challenge is 1 *)
Notation ex102_L := (afgho_g1 ZPair ex_env1 ex_rand).
Definition ex102_ip : list ZM -> list ZM -> res ZM := multiexp_ip (K := ZP) ZM.
Definition ex102_c1 : com3 (mod_carrier ZM) (mod_carrier (fmod ZP)) (identity_output ZM) := (zq 33, zq 0, [zq 2]).
Definition ex102_c2 : com3 (mod_carrier ZM) (mod_carrier (fmod ZP)) (identity_output ZM) := (zq 26, zq 0, [zq 8]).
Definition ex102_ask (w : list bytes) : bytes := gipa_hash_input 0 (f0 : ZP) ex102_c1 ex102_c2.
Definition ex102_know (w : list bytes) : list ZM * list ZM := (zl [3; 0]%Z, zl [0; 2]%Z).
Definition ex102_out (w : list bytes) : gssm_proof ZM (mod_carrier ZM) (identity_output ZM) :=
  mk_gipa_proof (MA := ZM) (MB := fmod ZP) [(ex102_c1, ex102_c2)] (zq 5, zq 5).
Example C102_example_fools :
  ssm_fools (K := ZP) (MA := ZM) (MT := ZM) (KA := ZM) (XA := ZM) ex102_L 5 ex101_ka [zq 15] (zl [2; 3]%Z) ex102_ask ex102_know ex102_out
    (fun D w => gssm_verify (K := ZP) (MA := ZM) (MT := ZM) (KA := ZM) (KT := unitmod ZP) (OA := mod_carrier ZM) (OT := identity_output ZM)
                  ex102_L (identity ZM) ex102_ip D 5 ex_env1 (ex101_ka, tt) (zq 61, [zq 15]) (zq 4) (ex102_out w) = Ok true)
    [ex101_digest 1].
Proof.
  exists (fun _ => ex101_digest 1). split; [intros q; cbn; lia|].
  split; [intros [|t] Ht; [reflexivity|cbn in Ht; lia]|].
  split; [repeat constructor|]. split; [reflexivity|]. split.
  - intros q Hq. exists 0. split; [cbn; lia|].
    inversion Hq as [prev s steps n Hn Hno|prev s steps n v q' Hn Hv Hq']; subst.
    + destruct n as [|n]; [reflexivity|]. specialize (Hno 0 ltac:(lia)). discriminate.
    + inversion Hq'.
  - unfold collision_found1.
    match goal with |- context [match ?x with _ => _ end] => assert (E : x = Some (zl [5; 5]%Z, zl [5; 5]%Z)) by reflexivity end.
    rewrite E. intros [H _]. now apply H.
Qed.
Example C102_example_hypotheses :
  length (zl [2; 3]%Z) = length ex101_ka /\ dh_commit ex102_L ex101_ka (zl [2; 3]%Z) = Ok (zq 61) /\
  ex102_ip (zl [2; 3]%Z) (powers (K := ZP) 2 (zq 4)) <> Ok (zq 15) /\
  knows_openings1 (K := ZP) (MA := ZM) (MT := ZM) (KA := ZM) (XA := ZM) ex102_L ex101_ka ex102_ask ex102_know.
Proof.
  split; [reflexivity|]. split; [reflexivity|]. split; [discriminate|].
  assert (F : prefix_free (@fser ZP)) by exact zp_ser_prefix_free. assert (G : prefix_free (@mser ZP ZM)) by exact zp_ser_prefix_free.
  intros w n p s Hs E. symmetry in E.
  apply (pay_inj (XA := ZM) (XB := fmod ZP) (MT := ZM) n 0 p f0 s (ex102_c1, ex102_c2) F G F G Hs) in E as [_ ->]; [|split; reflexivity].
  repeat split; reflexivity.
Qed.

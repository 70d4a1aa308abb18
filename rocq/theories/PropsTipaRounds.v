(** Property C105: TIPA as a non-interactive argument, for proofs with any number of rounds. The verifier of [TIPA] does not know
    the length of the committed vectors; C103 is about proofs with log2 n rounds. *)
Require Import List Arith NArith ZArith Lia Bool Field.
Import ListNotations.
Require Import Verif.Outcome Verif.Algebra Verif.Zp Verif.Rust Verif.InnerProducts Verif.Commitments
  Verif.Gipa Verif.Poly Verif.Tipa Verif.Ssm Verif.Spec Verif.ListFacts Verif.RustFacts Verif.InnerProductFacts Verif.CommitFacts Verif.RootFacts
  Verif.GipaFacts Verif.GipaComplete Verif.GipaTop Verif.PolyFacts Verif.TipaFacts Verif.SsmFacts Verif.GipaAttack Verif.SerFacts Verif.KeyFacts
  Verif.PropsBase Verif.PropsGipa Verif.PropsTipa Verif.PropsVerify Verif.PropsTipaForge Verif.PropsMalleable
  Verif.PropsForkingTwo Verif.Algebraic Verif.PropsAlgebraic Verif.Oracle Verif.OracleValues Verif.Rounds Verif.PropsSpecial Verif.PropsGipaOracle
  Verif.PropsSsmOracle Verif.PropsTipaOracle.

(** ** Vectors with zeros at the end *)
Section Long.
  Context {K : field} {M : module K}.
  Add Field KfLong : (f_theory K).

  Definition pad (n : nat) (l : list M) : list M := l ++ repeat m0 (n - length l).
  (** all entries from [m] on are zero *)
  Definition short (m : nat) (l : list M) : Prop := forall i, m <= i -> at_ l i = m0.

  Lemma pad_length n l : length l <= n -> length (pad n l) = n.
  Proof. intros H. unfold pad. rewrite app_length, repeat_length. lia. Qed.
  Lemma pad_short n l : short (length l) (pad n l).
  Proof.
    intros i Hi. unfold at_, pad. rewrite app_nth2 by exact Hi. apply nth_repeat.
  Qed.
  Lemma at_pad n l i : i < length l -> at_ (pad n l) i = at_ l i.
  Proof. intros H. unfold at_, pad. now rewrite app_nth1. Qed.

  Lemma at_firstn m (l : list M) i : i < m -> at_ (firstn m l) i = at_ l i.
  Proof.
    unfold at_. revert l i. induction m as [|m IH]; intros [|x l] i Hi; try lia; cbn [firstn]; [reflexivity|].
    destruct i as [|i]; [reflexivity|]. cbn [nth]. apply IH. lia.
  Qed.

  Lemma short_dec m l : {short m l} + {~ short m l}.
  Proof.
    destruct (all_below_dec (fun j => at_ l (m + j) = m0) (length l)) as [H|H]; [intros i _; apply m_eq_dec| |].
    - left. intros i Hi. destruct (Nat.lt_ge_cases i (length l)) as [Hl|Hl]; [|unfold at_; now rewrite nth_overflow].
      replace i with (m + (i - m)) by lia. apply H. lia.
    - right. intros G. apply H. intros i _. apply G. lia.
  Qed.

  Lemma short_three m n (w1 w w2 : list M) (l : list K) : NoDup l -> 3 <= length l -> length w1 = n -> length w = n -> length w2 = n ->
    (forall c, In c l -> c <> f0 /\ short m (fold3 c w1 w w2)) -> short m w.
  Proof.
    intros Hn Hl L1 L L2 H i Hi. destruct (Nat.lt_ge_cases i n) as [Hin|Hin]; [|unfold at_; apply nth_overflow; lia].
    apply (three_terms (at_ w1 i) (at_ w i) (at_ w2 i) l Hn Hl). intros c Hc. destruct (H c Hc) as [H0 Hs]. split; [exact H0|].
    rewrite <- (at_fold3 c w1 w w2 n) by auto. now apply Hs.
  Qed.

  Lemma fits_ext k xs (w w' : list M) : length xs <= k -> (forall i, i < 2 ^ k -> at_ w i = at_ w' i) -> fits k xs w -> fits k xs w'.
  Proof.
    intros Hk He H j i Hj Hi.
    assert (Hp : 2 ^ (k - 1 - j) + i < 2 ^ k).
    { pose proof (Nat.pow_le_mono_r 2 (S (k - 1 - j)) k ltac:(lia) ltac:(lia)) as Hp. cbn [Nat.pow] in Hp. lia. }
    rewrite <- !He by lia. now apply H.
  Qed.
  Lemma fold3_firstn m n c (w1 w w2 : list M) i : m <= n -> length w1 = n -> length w = n -> length w2 = n -> i < m ->
    at_ (fold3 c w1 w w2) i = at_ (fold3 c (firstn m w1) (firstn m w) (firstn m w2)) i.
  Proof.
    intros Hm L1 L L2 Hi. rewrite (at_fold3 c w1 w w2 n), (at_fold3 c (firstn m w1) (firstn m w) (firstn m w2) m) by (rewrite ?firstn_length; lia).
    now rewrite !at_firstn by exact Hi.
  Qed.
End Long.

Lemma dot_pad {K : field} {N M X : module K} (f : N -> M -> X) (ck : list N) (l : list M) : bilinear f -> length l <= length ck ->
  dot f ck (pad (length ck) l) = dot f (firstn (length l) ck) l.
Proof.
  intros Hf Hl. rewrite <- (firstn_skipn (length l) ck) at 1. unfold pad. rewrite dot_app by (rewrite firstn_length; lia).
  assert (E : forall (x : list N) j, dot f x (repeat m0 j) = m0).
  { induction x as [|x xs IH]; intros [|j]; try reflexivity. cbn [repeat]. rewrite dot_cons, IH, madd_0_r.
    transitivity (f x (f0 *m m0)); [now rewrite mscale_0_l|]. rewrite (bil_scale_r f Hf). apply mscale_0_l. }
  rewrite E. apply madd_0_r.
Qed.

(** ** Key polynomials of different degrees *)
Section KeyPolys.
  Context {K : field}.
  Add Field KfKeyPolys : (f_theory K).

  Lemma fprod_nonzero n (F : nat -> K) : (forall i, i < n -> F i <> f0) -> fprod n F <> f0.
  Proof.
    induction n as [|n IH]; intros H; cbn [fprod]; [apply f1_neq_f0|]. intros E. apply fmul_integral in E as [E|E]; revert E; [|apply H; lia].
    apply IH. intros i Hi. apply H. lia.
  Qed.

  (** a polynomial with at most m coefficients that agrees with the key polynomial at m points, where m is also at least the number of
      coefficients of the key polynomial, is the key polynomial; in particular it does not have fewer coefficients *)
  Lemma key_poly_same (t : list K) r (p zs : list K) m : length p <= m -> 2 * 2 ^ length t - 1 <= m -> NoDup zs -> m <= length zs ->
    (forall z, In z zs -> poly_at p z = key_poly t r z) ->
    (forall x, poly_at p x = key_poly t r x) /\ (r <> f0 -> Forall (fun x => x <> f0) t -> 2 * 2 ^ length t - 1 <= length p).
  Proof.
    intros Hp Hm Hz Hl Ha. destruct (C24_coefficients t r) as [l [_ [Hll [_ [Ht [_ Hk]]]]]].
    rewrite Nat.add_1_r in Hll. cbn [Nat.pow] in Hll.
    set (d := map (fun i => fat p i -f fat l i) (seq 0 m)).
    assert (Hx : forall q : list K, length q <= m -> forall y, poly_at q y = fbig m (fun i => fat q i *f fpow y i)).
    { intros q Hq y. unfold poly_at. replace m with (length q + (m - length q)) by lia. generalize (m - length q). intros j.
      induction j as [|j IH]; [now rewrite Nat.add_0_r|]. rewrite Nat.add_succ_r. cbn [fbig]. rewrite <- IH.
      unfold fat at 3. rewrite nth_overflow by lia. ring. }
    assert (Hd : forall y, poly_at d y = poly_at p y -f poly_at l y).
    { intros y. rewrite (Hx p Hp), (Hx l) by lia. unfold poly_at, d. rewrite map_length, seq_length.
      transitivity (fbig m (fun i => fat p i *f fpow y i +f fopp f1 *f (fat l i *f fpow y i))).
      - apply fbig_ext. intros i Hi. unfold fat at 1.
        rewrite (nth_indep _ f0 ((fun i => fat p i -f fat l i) 0)) by (rewrite map_length, seq_length; auto).
        rewrite (map_nth (fun i => fat p i -f fat l i)), seq_nth by auto. cbn [Nat.add]. ring.
      - rewrite fbig_add, fbig_scale. ring. }
    assert (H0 : forall c, In c d -> c = f0).
    { apply Forall_forall. apply (roots_zero (M := fmod K) zs); [exact Hz| |].
      - unfold d. rewrite map_length, seq_length. exact Hl.
      - intros z Hi. rewrite mev_ev, ev_poly_at, Hd, Ha, Hk by exact Hi. change (key_poly t r z -f key_poly t r z = f0). ring. }
    split.
    - intros x. rewrite <- Hk. transitivity (poly_at d x +f poly_at l x); [rewrite Hd; ring|].
      assert (E : poly_at d x = f0); [|rewrite E; ring].
      unfold poly_at. clear - H0. assert (Hb : forall n, n <= length d -> fbig n (fun i => fat d i *f fpow x i) = f0); [|now apply Hb].
      induction n as [|n IH]; intros Hn; [reflexivity|]. cbn [fbig]. rewrite IH by lia. rewrite (H0 (fat d n)) by (apply nth_In; lia). ring.
    - intros Hr Hnz. pose proof (Nat.pow_nonzero 2 (length t) ltac:(lia)) as H2. destruct (Nat.le_gt_cases (2 * 2 ^ length t - 1) (length p)) as [|Hs]; [assumption|exfalso].
      set (i := 2 ^ length t - 1). assert (E : fat p (2 * i) -f fat l (2 * i) = f0).
      { apply H0. unfold d. apply in_map_iff. exists (2 * i). split; [reflexivity|]. apply in_seq. unfold i. lia. }
      unfold fat at 1 in E. rewrite nth_overflow in E by (unfold i; lia).
      assert (E' : fat l (2 * i) = f0) by (transitivity (fopp (f0 -f fat l (2 * i))); [ring|rewrite E; ring]).
      rewrite Ht in E' by (unfold i; lia). revert E'. apply fprod_nonzero. intros j Hj.
      replace i with (Nat.ones (length t)) by (rewrite Nat.ones_equiv; unfold i; lia). rewrite Nat.ones_spec_low by exact Hj.
      intros E'. apply fmul_integral in E' as [E'|E'].
      + rewrite Forall_forall in Hnz. apply (Hnz (fat t j)); [now apply nth_In|exact E'].
      + revert E'. generalize (2 ^ j). intros e. induction e as [|e IHe]; cbn [fpow]; [apply f1_neq_f0|].
        intros E'. apply fmul_integral in E' as [E'|E']; contradiction.
  Qed.
End KeyPolys.

(** ** TIPA *)
Section AnyRounds.
  Context {R : Type} {P : pairing} {MA MB MT XA XB : module (pK P)}.
  Notation K := (pK P).
  Context (LMC : dhc R MA (pG2 P) (mod_carrier XA)) (RMC : dhc R MB (pG1 P) (mod_carrier XB)) (ip : list MA -> list MB -> res MT).
  Context (fA : pG2 P -> MA -> XA) (fB : pG1 P -> MB -> XB) (th : MA -> MB -> MT).
  Hypothesis LA : lin_commit LMC mid fA.
  Hypothesis LB : lin_commit RMC mid fB.
  Hypothesis LI : lin_ip ip th.
  Notation com := (com3 (mod_carrier XA) (mod_carrier XB) (identity_output MT)).
  Notation step := (com * com)%type.
  Notation openings := ((list MA * list MA) * (list MB * list MB))%type.
  Notation past := (list (step * openings * K)).
  Add Field KfAnyRounds : (f_theory (pK P)).
  Variables (fuel : nat) (s : srs P) (alpha beta : K) (n N : nat) (ka : list (pG2 P)) (kb : list (pG1 P)) (r : K).
  Variables (kt : unitmod K) (ca : XA) (cb : XB) (ct : list MT) (a : list MA) (b : list MB).
  Notation ka' := (shift_vec (finv r) ka).
  Variables (ask : list bytes -> bytes) (know : list bytes -> openings) (keys : list bytes -> comb P * comb P)
    (out : list bytes -> tipa_proof P MA MB (mod_carrier XA) (mod_carrier XB) (identity_output MT)) (opening : list bytes -> comb P * comb P).

  (** the program of C101 that looks for two openings of one commitment; an opening for the folded first 2^k key elements is one for
      the whole key, with zeros at the end *)
  Definition two_openings_any (w : list bytes) : option ((list MA * list MA) * (list MB * list MB)) :=
    let steps := rev (gp_steps (tp_gipa (out w))) in
    match round_times fuel ask w f0 steps with
    | Some ts =>
      let cs := map (fun t => challenge_of (nth t w [])) ts in
      let '(A, B, _) := after ct a b (rounds challenge_of know w steps ts) in
      Some ((A, pad (length ka) (spread_out (map finv cs) (fst (gp_base (tp_gipa (out w)))))),
            (B, pad (length kb) (spread_out cs (snd (gp_base (tp_gipa (out w)))))))
    | None => None
    end.
  Definition collision_found_any (w : list bytes) : Prop :=
    match two_openings_any w with
    | Some ((A, A'), (B, B')) => collides LMC ka' A A' \/ collides RMC kb B B'
    | None => False
    end.

  (** [tipa_fools] of C103 with at most log2 N rounds, instead of exactly log2 n *)
  Definition tipa_fools_any (v : vsrs P) (w : list bytes) : Prop :=
    exists D, digest16 D /\ (forall t, t < length w -> D (ask (firstn t w)) = nth t w []) /\
      Forall ok_round (gp_steps (tp_gipa (out w))) /\ 2 ^ length (gp_steps (tp_gipa (out w))) <= N /\
      tipa_verify_with_srs_shift LMC RMC (identity MT) ip D fuel v kt (ca, cb, ct) (out w) r = Ok true /\
      (forall q, tipa_hashed fuel D (out w) q -> exists t, t < length w /\ ask (firstn t w) = q) /\
      ~ collision_found_any w /\ ~ relation_found fuel alpha beta n r ask keys out opening w.

  Hypotheses (Hn : 0 < n) (Hs : srs_ok s alpha beta n) (Hg : pr_g P <> m0) (Hh : pr_h P <> m0).
  Hypothesis Hk : get_commitment_keys s = (ka, kb).
  Hypotheses (Ha : length a = n) (Hb : length b = n).
  Hypotheses (Ea : dh_commit LMC ka' a = Ok ca) (Eb : dh_commit RMC kb b = Ok cb).
  Hypothesis Hfalse : ip a b <> Ok (at_ ct 0).
  Hypothesis Hknow : knows_openings LMC RMC (MT := MT) ka' kb ask know.
  Hypothesis Hkeys : knows_keys s ask keys out opening.

  Lemma shifted_lengths : length ka = n /\ length ka' = n /\ length kb = n.
  Proof using Hk Hs Hn.
    destruct (C21_keys s alpha beta n Hn Hs) as [[ka1 [kb1 [E1 [L1 [L2 _]]]]] _]. rewrite Hk in E1. injection E1 as <- <-.
    unfold shift_vec. rewrite map_length, seq_length. auto.
  Qed.

  (** *** Claims about 2^k elements *)
  Definition right_at (k : nat) (h : past) : Prop :=
    let '(A, B, t) := after ct a b h in short (2 ^ k) A /\ short (2 ^ k) B /\ right_claim th k (map snd h) A B t.
  Definition becomes_right_at (k : nat) (h : past) (st : step) (e : openings) (c : K) : Prop :=
    2 ^ k <= n /\ length h < k /\ opened LMC RMC ka' kb h /\ opens LMC RMC ka' kb st e /\ ~ right_at k h /\ right_at k (h ++ [(st, e, c)]).
  Definition becomes_right_any (h : past) (st : step) (e : openings) (c : K) : Prop := exists k, becomes_right_at k h st e c.

  Lemma becomes_right_at_few k h st e xs : NoDup xs -> (forall x, In x xs -> x <> f0 /\ becomes_right_at k h st e x) -> length xs <= 3.
  Proof using LA LB LI Hn Hs Hk Ha Hb.
    intros Hnd H. destruct (Nat.le_gt_cases (length xs) 3) as [|Hl]; [assumption|exfalso].
    destruct xs as [|x0 xs0] eqn:Ex; [cbn in Hl; lia|]. rewrite <- Ex in *. destruct shifted_lengths as (L0 & La & Lb).
    destruct (H x0) as [_ (Hkn & Hk' & Ho & Hst & Hw & _)]; [rewrite Ex; apply in_eq|]. apply Hw.
    pose proof (after_commit LMC RMC fA fB LA LB ka' kb h a b (at_ ct 0) Ho (eq_trans Ha (eq_sym La)) (eq_trans Hb (eq_sym Lb))) as Hc.
    fold (after ct a b h) in Hc. unfold right_at in *.
    assert (Hr : forall x, In x xs -> x <> f0 /\ let '(A, B, t) := next (after ct a b h) (st, e, x) in
                   short (2 ^ k) A /\ short (2 ^ k) B /\ right_claim th k (map snd h ++ [x]) A B t).
    { intros x Hx. destruct (H x Hx) as [H0 (_ & _ & _ & _ & _ & Hx')]. split; [exact H0|]. unfold right_at in Hx'. rewrite after_snoc, map_app in Hx'. exact Hx'. }
    destruct (after ct a b h) as [[A B] t]. destruct Hc as (HA & HB & _).
    destruct e as [[A1 A2] [B1 B2]]. destruct Hst as ((LA1 & _) & (LA2 & _) & (LB1 & _) & (LB2 & _)). cbn [next] in Hr.
    rewrite La in *. rewrite Lb in *.
    split; [|split].
    - apply (short_three (2 ^ k) n A1 A A2 xs Hnd); auto; [lia|]. intros c Hc. destruct (Hr c Hc) as (H0 & H1 & _). auto.
    - apply (short_three (2 ^ k) n B1 B B2 xs Hnd); auto; [lia|]. intros c Hc. destruct (Hr c Hc) as (H0 & _ & H1 & _). auto.
    - assert (Hri : right_claim th k (map snd h) (firstn (2 ^ k) A) (firstn (2 ^ k) B) t).
      { apply (round_right th (li_bil _ _ LI) k (map snd h) (firstn (2 ^ k) A1) (firstn (2 ^ k) A) (firstn (2 ^ k) A2)
          (firstn (2 ^ k) B1) (firstn (2 ^ k) B) (firstn (2 ^ k) B2) (at_ (com_vec (fst st)) 0) t (at_ (com_vec (snd st)) 0) xs Hnd);
          try (rewrite firstn_length; lia); [exact Hl|rewrite map_length; exact Hk'|].
        intros c Hc. destruct (Hr c Hc) as (H0 & _ & _ & F1 & F2 & F3). split; [exact H0|].
        assert (Ecs : length (map snd h ++ [c]) <= k) by (rewrite app_length, map_length; cbn; lia).
        assert (EA : forall i, i < 2 ^ k -> at_ (fold3 c A1 A A2) i = at_ (fold3 c (firstn (2 ^ k) A1) (firstn (2 ^ k) A) (firstn (2 ^ k) A2)) i)
          by (intros i Hi; now apply (fold3_firstn (2 ^ k) n)).
        assert (EB : forall i, i < 2 ^ k -> at_ (fold3 c B1 B B2) i = at_ (fold3 c (firstn (2 ^ k) B1) (firstn (2 ^ k) B) (firstn (2 ^ k) B2)) i)
          by (intros i Hi; now apply (fold3_firstn (2 ^ k) n)).
        split; [|split].
        - eapply fits_ext; [rewrite map_length; exact Ecs|exact EA|exact F1].
        - eapply fits_ext; [exact Ecs|exact EB|exact F2].
        - rewrite F3. apply big_ext. intros i Hi.
          assert (i < 2 ^ k) by (eapply Nat.lt_le_trans; [exact Hi|apply Nat.pow_le_mono_r; lia]). now rewrite EA, EB. }
      destruct Hri as (F1 & F2 & F3). split; [|split].
      + eapply fits_ext; [rewrite !map_length; lia| |exact F1]. intros i Hi. now apply at_firstn.
      + eapply fits_ext; [rewrite !map_length; lia| |exact F2]. intros i Hi. now apply at_firstn.
      + rewrite F3. apply big_ext. intros i Hi.
        assert (i < 2 ^ k) by (eapply Nat.lt_le_trans; [exact Hi|apply Nat.pow_le_mono_r; lia]). now rewrite !at_firstn.
  Qed.
  Lemma becomes_right_any_few h st e xs : NoDup xs -> (forall x, In x xs -> x <> f0 /\ becomes_right_any h st e x) -> length xs <= 3 * Nat.log2 n.
  Proof using LA LB LI Hn Hs Hk Ha Hb.
    intros Hnd H. apply (union_bound (fun j x => x <> f0 /\ becomes_right_at (S j) h st e x)); [exact Hnd| |].
    - intros x Hx. destruct (H x Hx) as [H0 [[|k] Hb']]; [destruct Hb' as (_ & Hlt & _); lia|]. exists k. split; [|split; [exact H0|exact Hb']].
      destruct Hb' as (Hle & _). apply Nat.log2_le_mono in Hle. rewrite Nat.log2_pow2 in Hle by lia. lia.
    - intros j l _ Hl Hx. exact (becomes_right_at_few (S j) h st e l Hl Hx).
  Qed.
  Lemma right_at_dec k h : {right_at k h} + {~ right_at k h}.
  Proof using.
    clear. unfold right_at, right_claim. destruct (after ct a b h) as [[A B] t].
    destruct (short_dec (2 ^ k) A) as [H4|H4]; [|right; tauto]. destruct (short_dec (2 ^ k) B) as [H5|H5]; [|right; tauto].
    destruct (fits_dec k (map finv (map snd h)) A) as [H1|H1]; [|right; tauto].
    destruct (fits_dec k (map snd h) B) as [H2|H2]; [|right; tauto].
    destruct (m_eq_dec K MT t (big (2 ^ (k - length (map snd h))) (fun i => th (at_ A i) (at_ B i)))) as [H3|H3]; [left; auto|right; tauto].
  Qed.

  Lemma first_claim_wrong_at k : 2 ^ k <= n -> ~ right_at k [].
  Proof using Ha Hb Hfalse LI Hn.
    intros Hkn Hr. apply Hfalse. unfold right_at, after, right_claim in Hr. cbn [fold_left map length] in Hr.
    destruct Hr as (SA & _ & _ & _ & ->). rewrite Nat.sub_0_r.
    rewrite (li_ip _ _ LI) by congruence. f_equal. rewrite dot_big by congruence. rewrite Ha.
    replace n with (2 ^ k + (n - 2 ^ k)) by lia. rewrite big_split. rewrite (big_ext (n - 2 ^ k) _ (fun _ => m0)).
    - assert (E : forall j, big j (fun _ => m0 : MT) = m0) by (induction j as [|j IH]; [reflexivity|cbn [big]; rewrite IH; apply madd_0_l]).
      rewrite E. apply madd_0_r.
    - intros i Hi. rewrite SA by lia. pose proof (li_bil _ _ LI) as B0.
      transitivity (th (f0 *m m0) (at_ b (2 ^ k + i))); [now rewrite mscale_0_l|]. rewrite (bil_scale_l _ B0). apply mscale_0_l.
  Qed.

  Section Answers.
    Variables (w : list bytes) (Om : list bytes).
    Hypothesis Ow : incl w Om.
    Lemma right_at_is_bad k steps : 2 ^ k <= n -> forall ts, length steps <= k -> linked f0 challenge_of ok_round pay ask w f0 steps ts ->
      right_at k (rounds challenge_of know w steps ts) -> bad_somewhere f0 Om challenge_of ok_round pay ask know becomes_right_any w.
    Proof using Ow Ha Hb Hfalse Hknow LI Hn.
      intros Hkn. induction steps as [|st steps IH] using rev_ind; intros ts Hl' Hl Hr.
      - destruct ts; [|contradiction]. exfalso. exact (first_claim_wrong_at k Hkn Hr).
      - destruct ts as [|t ts _] using rev_ind; [destruct steps; contradiction|].
        pose proof (proj1 (linked_snoc _ _ _ _ _ _ _ _ _ _ _) Hl) as (Hl1 & _). pose proof (linked_length _ _ _ _ _ _ _ _ _ Hl1) as El.
        rewrite app_length in Hl'. cbn [length] in Hl'.
        destruct (right_at_dec k (rounds challenge_of know w steps ts)) as [Hy|Hy]; [apply (IH ts); auto; lia|].
        apply (hit_is_bad (f_eq_dec K) f0 Om challenge_of ok_round pay ask know becomes_right_any w Ow steps ts st t Hl).
        pose proof (linked_opened LMC RMC ka' kb ask know w _ Hknow _ _ Hl) as Ho. rewrite (rounds_snoc _ _ _ _ _ _ _ El) in Hr, Ho.
        apply Forall_app in Ho as [Ho1 Ho2]. inversion Ho2 as [|? ? Ho3 _]; subst. cbn [fst snd] in Ho3.
        exists k. split; [exact Hkn|]. split; [|auto]. unfold rounds. rewrite map_length, combine_length. lia.
    Qed.
  End Answers.

  (** *** Lucky points *)
  Hypothesis HN : n <= N.
  Definition lucky_point_any (h : past) (ck : pG2 P * pG1 P) (e : comb P * comb P) (z : K) : Prop :=
    2 ^ length h <= N /\ r <> f0 /\ Forall (fun c => c <> f0) (map snd h) /\
    ~ (2 ^ length h <= n /\ both_g s e = right_keys alpha beta r (map snd h)) /\ exists o, tipa_relation n r e o (map snd h) z = None.

  Lemma lucky_point_any_few h ck e zs : NoDup zs -> (forall z, In z zs -> lucky_point_any h ck e z) -> length zs <= 2 * N - 2.
  Proof using Hs HN Hn.
    clear Ha Hb Ea Eb Hfalse Hknow Hkeys Hk. intros Hz H. destruct (Nat.le_gt_cases (length zs) (2 * N - 2)) as [|Hl]; [assumption|exfalso].
    destruct zs as [|z0 zs0] eqn:Ez; [cbn in Hl; lia|]. rewrite <- Ez in *.
    destruct (H z0) as (Hlen & Hr & Hc & Hne & _); [rewrite Ez; apply in_eq|]. apply Hne.
    assert (Hrel : forall z, In z zs -> exists o, side_relation InBeta n (fst e) (fst o) z (key_poly (map finv (rev (map snd h))) (finv r) z) = None /\ side_relation InAlpha n (snd e) (snd o) z (key_poly (rev (map snd h)) f1 z) = None).
    { intros z Hi. destruct (H z Hi) as (_ & _ & _ & _ & o & Ho). exists o. unfold tipa_relation in Ho.
      destruct (side_relation InBeta _ _ _ _ _); [discriminate|split; [reflexivity|exact Ho]]. }
    destruct (key_poly_same (map finv (rev (map snd h))) (finv r) (resize (2 * n - 1) f0 (fst (fst e))) zs (2 * N - 1)) as [A1 A2]; auto; try lia.
    { rewrite resize_length. lia. }
    { rewrite map_length, rev_length, map_length. lia. }
    { intros z Hi. destruct (Hrel z Hi) as (o & Ho & _). apply side_relation_none in Ho. now apply side_check_zero in Ho as [Ho _]. }
    destruct (key_poly_same (rev (map snd h)) f1 (resize (2 * n - 1) f0 (fst (snd e))) zs (2 * N - 1)) as [B1 _]; auto; try lia.
    { rewrite resize_length. lia. }
    { rewrite rev_length, map_length. lia. }
    { intros z Hi. destruct (Hrel z Hi) as (o & _ & Ho). apply side_relation_none in Ho. now apply side_check_zero in Ho as [Ho _]. }
    assert (Hz0 : snd (fst e) = f0 /\ snd (snd e) = f0).
    { destruct (Hrel z0) as (o & O1 & O2); [rewrite Ez; apply in_eq|]. apply side_relation_none in O1, O2.
      apply side_check_zero in O1 as [_ O1]. apply side_check_zero in O2 as [_ O2]. auto. }
    destruct Hz0 as [Z1 Z2]. split.
    - rewrite resize_length, map_length, rev_length, map_length in A2.
      assert (2 * 2 ^ length h - 1 <= 2 * n - 1); [|pose proof (Nat.pow_nonzero 2 (length h)); lia].
      apply A2; [now apply finv_neq0|]. apply Forall_forall. intros x Hx. apply in_map_iff in Hx as (y & <- & Hy). apply finv_neq0.
      rewrite Forall_forall in Hc. apply Hc. now apply in_rev.
    - unfold both_g, right_keys. rewrite (comb_g2_eval s alpha beta n Hs), (comb_g1_eval s alpha beta n Hs), A1, B1, Z1, Z2. do 2 f_equal; ring.
  Qed.

  (** the right keys are those folded from the first 2^k elements *)
  Lemma short_keys cs : 2 ^ length cs <= n ->
    right_keys alpha beta r cs = (folded_key (firstn (2 ^ length cs) ka') (map finv cs), folded_key (firstn (2 ^ length cs) kb) cs).
  Proof using Hs Hk Hn.
    clear HN Ha Hb Ea Eb Hfalse Hknow Hkeys. intros Hle. set (m := 2 ^ length cs) in *. assert (Hm : 0 < m) by (unfold m; pose proof (Nat.pow_nonzero 2 (length cs)); lia).
    assert (Hs1 : srs_ok (trap_srs alpha beta m) alpha beta m) by now apply srs_ok_iff.
    destruct (C21_keys s alpha beta n Hn Hs) as [(k1 & k2 & E1 & L1 & L2 & Hi) _]. rewrite Hk in E1. injection E1 as <- <-.
    destruct (C21_keys _ alpha beta m Hm Hs1) as [(k1 & k2 & E1 & M1 & M2 & Hj) _].
    destruct (folded_keys_eval _ alpha beta k1 k2 r m cs Hm Hs1 E1 eq_refl) as (_ & _ & M3 & F1 & F2).
    unfold right_keys. rewrite <- F1, <- F2. f_equal; unfold folded_key.
    - rewrite M3, firstn_length. replace (Nat.min m (length ka')) with m by (unfold shift_vec; rewrite map_length, seq_length; lia).
      apply big_ext. intros i Hi'. f_equal. rewrite at_firstn by exact Hi'. unfold shift_vec.
      rewrite !(at_map_seq (fun i => fpow (finv r) i *m at_ _ i)) by lia. f_equal. rewrite (proj1 (Hj i Hi')). symmetry. apply Hi. lia.
    - rewrite M2, firstn_length. replace (Nat.min m (length kb)) with m by lia. apply big_ext. intros i Hi'. f_equal.
      rewrite at_firstn by exact Hi'. rewrite (proj2 (Hj i Hi')). symmetry. apply Hi. lia.
  Qed.

  Lemma linked_usable (w : list bytes) (steps : list step) : forall prev ts, linked f0 (challenge_of (K := K)) ok_round pay ask w prev steps ts ->
    Forall (fun c => c <> f0) (map (fun t => challenge_of (K := K) (nth t w [])) ts).
  Proof using.
    clear. induction steps as [|st steps IH]; intros prev [|t ts] H; cbn [linked] in H; try contradiction; [constructor|].
    destruct H as (_ & _ & _ & H0 & Hl). cbn [map]. constructor; [exact H0|]. exact (IH _ _ Hl).
  Qed.

  Lemma tipa_fools_any_bad w Om : incl w Om -> tipa_fools_any (key_of alpha beta) w ->
    bad_last_somewhere f0 Om challenge_of ok_round pay ask know becomes_right_any w (f_rand (f := K)) (fun _ => True) point_input keys lucky_point_any.
  Proof using Ha Hb Ea Eb Hfalse Hknow Hkeys LA LB LI Hn HN Hs Hg Hh Hk.
    intros Ow (D & H16 & HD & Hok & Hlen & Hv & Hq & Hno & Hnr). destruct shifted_lengths as (L0 & La & Lb).
    destruct (proj1 (C53_tipa_accepts_iff_identity D fuel H16 _ _ _ _ _ _ _ _ _ _ _) Hv) as (cs & z & v & Hch & _ & Hr0 & Hz & [O1 O2] & Ev & E1 & E2 & _ & E3).
    set (steps := rev (gp_steps (tp_gipa (out w)))) in *.
    destruct (round_times_found fuel ask w D HD steps f0 cs Hch) as (ts & Ets & Hl & Em); [now apply Forall_rev|intros q H; apply Hq; now left|].
    pose proof (linked_length _ _ _ _ _ _ _ _ _ Hl) as El. pose proof (linked_usable w steps _ _ Hl) as Hus. rewrite Em in Hus.
    destruct (point_time_found K ask w D fuel _ z HD Hz) as (m & t & Et & Ht & Eq & Ez).
    { intros q H. apply Hq. right. exists cs. auto. }
    assert (Hcl : length cs = length (gp_steps (tp_gipa (out w)))) by (rewrite <- Em, map_length, <- El; apply rev_length).
    unfold relation_found, relation_of in Hnr. fold steps in Hnr. rewrite Ets in Hnr. cbv zeta in Hnr. rewrite Em, Et, Ez in Hnr.
    destruct Hkeys as [HkA HkO]. pose proof (HkA (firstn t w) m (last cs f0) (tp_final_ck (out w)) Eq) as Ek.
    rewrite (HkO w), <- Ek in O1. rewrite (HkO w), <- Ek in O2.
    destruct (tipa_relation n r (keys (firstn t w)) (opening w) cs z) as [rel|] eqn:Er.
    { exfalso. apply Hnr. exact (tipa_relation_ok s alpha beta n Hn Hs Hg Hh r _ _ cs z rel O1 O2 Er). }
    destruct (rounds_maps know w steps ts El) as [M1 M2]. rewrite Em in M2.
    assert (Hdec : {both_g s (keys (firstn t w)) = right_keys alpha beta r cs} + {both_g s (keys (firstn t w)) <> right_keys alpha beta r cs}).
    { destruct (both_g s (keys (firstn t w))) as [x y]. unfold right_keys.
      match goal with |- {(x, y) = (?u, ?v)} + {_} => destruct (m_eq_dec _ _ x u) as [->|N1]; [destruct (m_eq_dec _ _ y v) as [->|N2]; [now left|]|] end;
        right; intros E; injection E; auto. }
    assert (Hbad : ~ (2 ^ length cs <= n /\ both_g s (keys (firstn t w)) = right_keys alpha beta r cs) ->
      bad_last_somewhere f0 Om challenge_of ok_round pay ask know becomes_right_any w (f_rand (f := K)) (fun _ => True) point_input keys lucky_point_any).
    { intros Hwrong.
      apply (last_is_bad (f_eq_dec K) f0 Om challenge_of ok_round pay ask know becomes_right_any w Ow (f_rand (f := K)) (fun _ => True) point_input keys lucky_point_any
               steps ts t m (tp_final_ck (out w)) z Hl Ht I); [|exact Ez|].
      - unfold answer. rewrite Em. exact Eq.
      - assert (Elr : length (rounds challenge_of know w steps ts) = length cs) by (rewrite <- M2; symmetry; apply map_length).
        unfold lucky_point_any. rewrite M2, Elr. split; [rewrite Hcl; exact Hlen|]. split; [exact Hr0|]. split; [exact Hus|]. split; [exact Hwrong|eauto]. }
    destruct (Nat.le_gt_cases (2 ^ length cs) n) as [Hle|Hgt]; [|apply Hbad; intros [G _]; lia].
    destruct Hdec as [Hr|Hr]; [|apply Hbad; intros [_ G]; contradiction]. clear Hbad.
    apply bad_somewhere_last. apply (right_at_is_bad w Om Ow (length cs) steps Hle ts); [unfold steps; rewrite rev_length; lia|exact Hl|].
    rewrite (short_keys cs Hle) in Hr. rewrite Hr in Ek.
    pose proof (linked_opened LMC RMC ka' kb ask know w steps Hknow _ _ Hl) as Ho.
    pose proof (after_commit LMC RMC fA fB LA LB ka' kb _ a b (at_ ct 0) Ho (eq_trans Ha (eq_sym La)) (eq_trans Hb (eq_sym Lb))) as Hc.
    fold (after ct a b (rounds challenge_of know w steps ts)) in Hc.
    unfold collision_found_any, two_openings_any in Hno. fold steps in Hno. cbv zeta in Hno. rewrite Ets, Em in Hno. unfold right_at.
    rewrite M1, M2 in Hc. rewrite M2. destruct (after ct a b (rounds challenge_of know w steps ts)) as [[A B] u].
    destruct Hc as (LA' & LB' & CA & CB & CT).
    rewrite (lc_commit _ _ _ LA) in Ea by congruence. rewrite (lc_commit _ _ _ LB) in Eb by congruence.
    injection Ea as Ea'. injection Eb as Eb'. unfold mid in Ea', Eb'. rewrite Ea' in CA. rewrite Eb' in CB.
    rewrite <- Ek in E1, E2. cbn [fst snd] in E1, E2.
    rewrite (lc_single _ _ _ _ _ LA) in E1. rewrite (lc_single _ _ _ _ _ LB) in E2. injection E1 as E1. injection E2 as E2. unfold mid in E1, E2.
    unfold steps in CA, CB, CT. rewrite cfold1_folded in CA by exact Hcl. rewrite cfold1_folded in CB by exact Hcl. rewrite cfold1_folded in CT by exact Hcl.
    set (SA := spread_out (map finv cs) (fst (gp_base (tp_gipa (out w))))) in *. set (SB := spread_out cs (snd (gp_base (tp_gipa (out w))))) in *.
    assert (LSA : length SA = 2 ^ length cs) by (unfold SA; now rewrite spread_out_length, map_length).
    assert (LSB : length SB = 2 ^ length cs) by (unfold SB; now rewrite spread_out_length).
    assert (PA : dot fA ka' (pad n SA) = dot fA ka' A).
    { rewrite CA, <- E1, <- La, (dot_pad fA ka' SA (lc_bil _ _ _ LA)) by lia. rewrite LSA.
      apply (dot_spread_out fA); [apply (lc_bil _ _ _ LA)|]. rewrite firstn_length, map_length. lia. }
    assert (PB : dot fB kb (pad n SB) = dot fB kb B).
    { rewrite CB, <- E2, <- Lb, (dot_pad fB kb SB (lc_bil _ _ _ LB)) by lia. rewrite LSB.
      apply (dot_spread_out fB); [apply (lc_bil _ _ _ LB)|]. rewrite firstn_length. lia. }
    assert (PLA : length (pad n SA) = n) by (apply pad_length; lia). assert (PLB : length (pad n SB) = n) by (apply pad_length; lia).
    rewrite L0, Lb in Hno.
    destruct (list_eq_dec (m_eq_dec K MA) A (pad n SA)) as [-> |Hne].
    2:{ exfalso. apply Hno. left. split; [exact Hne|]. split; [exact LA'|]. split; [congruence|]. exists (mid (dot fA ka' A)).
        rewrite !(lc_commit _ _ _ LA) by congruence. split; congruence. }
    destruct (list_eq_dec (m_eq_dec K MB) B (pad n SB)) as [-> |Hne].
    2:{ exfalso. apply Hno. right. split; [exact Hne|]. split; [exact LB'|]. split; [congruence|]. exists (mid (dot fB kb B)).
        rewrite !(lc_commit _ _ _ LB) by congruence. split; congruence. }
    rewrite <- LSA at 1. split; [apply pad_short|]. rewrite <- LSB at 1. split; [apply pad_short|]. split; [|split].
    - apply (fits_ext _ _ SA); [rewrite map_length; lia|intros i Hi; symmetry; apply at_pad; lia|].
      rewrite <- (map_length finv cs) at 1. apply spread_out_fits.
    - apply (fits_ext _ _ SB); [lia|intros i Hi; symmetry; apply at_pad; lia|]. apply spread_out_fits.
    - rewrite CT, <- E3, Nat.sub_diag. cbn [Nat.pow big]. rewrite madd_0_l.
      rewrite !at_pad by (rewrite ?LSA, ?LSB; pose proof (Nat.pow_nonzero 2 (length cs)); lia). unfold SA, SB. rewrite !at_spread_out_0.
      rewrite (lin_ip_single _ _ _ _ LI) in Ev. now injection Ev.
  Qed.

  Variables (Om : list bytes) (share gamma : nat).
  Hypothesis NOm : NoDup Om.
  Hypothesis Hspread : challenges_spread K Om share.
  Hypothesis Hpoints : points_spread K Om gamma.
  Hypotheses (FF : prefix_free (@fser K)) (FA : prefix_free (@mser K XA)) (FB : prefix_free (@mser K XB)) (FT : prefix_free (@mser K MT)).
  Hypotheses (F1 : prefix_free (@mser K (pG1 P))) (F2 : prefix_free (@mser K (pG2 P))).
  Variables (Q : nat) (L : list (list bytes)).
  Hypothesis NL : NoDup L.
  Hypothesis HL : forall w, In w L -> length w = Q /\ incl w Om /\ tipa_fools_any (key_of alpha beta) w.

  Lemma tipa_count_any : length L <= (share * (3 * Q + 3 * Nat.log2 n) + gamma * (2 * N - 2)) * Q * length Om ^ (Q - 1).
  Proof using All.
    apply (few_bad_any (list_eq_dec N.eq_dec) Om NOm (share * (3 * Q + 3 * Nat.log2 n) + gamma * (2 * N - 2)) Q
             (bad_last f0 Om challenge_of ok_round pay ask know becomes_right_any (f_rand (f := K)) (fun _ => True) point_input keys lucky_point_any) L).
    - intros pre l Hp Hl Hbad.
      etransitivity; [apply (few_bad_last (f_eq_dec K) f0 Om challenge_of ok_round pay
                               (fun n n' v v' z z' => pay_inj n n' v v' z z' FF FA FB FT) ask know share Hspread becomes_right_any (3 * Nat.log2 n)
                               becomes_right_any_few
                               (f_eq_dec K) (f_rand (f := K)) (fun _ => True) point_input keys
                               (fun n n' v v' f f' _ _ => point_input_inj n n' v v' f f' FF F2 F1) gamma Hpoints lucky_point_any (2 * N - 2) lucky_point_any_few pre l Hl Hbad)|].
      rewrite Nat.add_assoc. apply Nat.add_le_mono_r. rewrite <- Nat.mul_add_distr_l. apply Nat.mul_le_mono_l. unfold bytes in *. lia.
    - exact NL.
    - intros w Hw. destruct (HL w Hw) as [H1 [H2 H3]]. split; [exact H1|]. split; [exact H2|]. exact (tipa_fools_any_bad w Om H2 H3).
  Qed.
End AnyRounds.

(** ** TIPA with a structured scalar message *)
Section AnyRoundsSsm.
  Context {R : Type} {P : pairing} {MA MT XA : module (pK P)}.
  Notation K := (pK P).
  Context (LMC : dhc R MA (pG2 P) (mod_carrier XA)) (ip : list MA -> list (fmod K) -> res MT).
  Context (fA : pG2 P -> MA -> XA) (th : MA -> fmod K -> MT).
  Hypothesis LA : lin_commit LMC mid fA.
  Hypothesis LI : lin_ip ip th.
  Notation com := (com3 (mod_carrier XA) (mod_carrier (fmod K)) (identity_output MT)).
  Notation step := (com * com)%type.
  Notation openings := (list MA * list MA)%type.
  Notation past := (list (step * openings * K)).
  Add Field KfAnyRoundsSsm : (f_theory (pK P)).
  Variables (fuel : nat) (E : penv) (s : srs P) (alpha beta : K) (n N : nat) (ka : list (pG2 P)) (kb : list (pG1 P)).
  Variables (kt : unitmod K) (ca : XA) (ct : list MT) (b : K) (a : list MA).
  Variables (ask : list bytes -> bytes) (know : list bytes -> openings) (keys : list bytes -> comb P)
    (out : list bytes -> tssm_proof P MA (mod_carrier XA) (identity_output MT)) (opening : list bytes -> comb P).

  Definition two_openings_any1 (w : list bytes) : option (list MA * list MA) :=
    let steps := rev (gp_steps (ts_gipa (out w))) in
    match round_times fuel ask w f0 steps with
    | Some ts =>
      let cs := map (fun t => challenge_of (nth t w [])) ts in
      Some (fst (after1 ct a (rounds challenge_of know w steps ts)), pad (length ka) (spread_out (map finv cs) (fst (gp_base (ts_gipa (out w))))))
    | None => None
    end.
  Definition collision_found_any1 (w : list bytes) : Prop :=
    match two_openings_any1 w with Some (A, A') => collides LMC ka A A' | None => False end.

  Definition tssm_fools_any (v : vsrs P) (w : list bytes) : Prop :=
    exists D, digest16 D /\ (forall t, t < length w -> D (ask (firstn t w)) = nth t w []) /\
      Forall ok_round (gp_steps (ts_gipa (out w))) /\ 2 ^ length (gp_steps (ts_gipa (out w))) <= N /\
      tssm_verify LMC (identity MT) ip D fuel E v kt (ca, ct) b (out w) = Ok true /\
      (forall q, tssm_hashed fuel D (out w) q -> exists t, t < length w /\ ask (firstn t w) = q) /\
      ~ collision_found_any1 w /\ ~ relation_found1 fuel alpha beta n ask keys out opening w.

  Hypotheses (Hn : 0 < n) (Hs : srs_ok s alpha beta n) (Hh : pr_h P <> m0).
  Hypothesis Hk : get_commitment_keys s = (ka, kb).
  Hypothesis Ha : length a = n.
  Hypothesis Ea : dh_commit LMC ka a = Ok ca.
  Hypothesis Hfalse : ip a (powers n b) <> Ok (at_ ct 0).
  Hypothesis Hknow : knows_openings1 LMC (MT := MT) ka ask know.
  Hypothesis Hkeys : knows_keys1 s ask keys out opening.

  Lemma key_length_any : length ka = n.
  Proof using Hk Hs Hn.
    destruct (C21_keys s alpha beta n Hn Hs) as [[ka1 [kb1 [E1 [L1 _]]]] _]. rewrite Hk in E1. now injection E1 as <- <-.
  Qed.

  Definition right_at1 (k : nat) (h : past) : Prop :=
    short (2 ^ k) (fst (after1 ct a h)) /\ right1 th k b (map snd h) (fst (after1 ct a h)) (snd (after1 ct a h)).
  Definition becomes_right_at1 (k : nat) (h : past) (st : step) (e : openings) (c : K) : Prop :=
    2 ^ k <= n /\ length h < k /\ opened1 LMC ka h /\ opens1 LMC ka st e /\ ~ right_at1 k h /\ right_at1 k (h ++ [(st, e, c)]).
  Definition becomes_right_any1 (h : past) (st : step) (e : openings) (c : K) : Prop := exists k, becomes_right_at1 k h st e c.

  Lemma becomes_right_at1_few k h st e xs : NoDup xs -> (forall x, In x xs -> x <> f0 /\ becomes_right_at1 k h st e x) -> length xs <= 3.
  Proof using LA LI Hn Hs Hk Ha.
    intros Hnd H. destruct (Nat.le_gt_cases (length xs) 3) as [|Hl]; [assumption|exfalso].
    destruct xs as [|x0 xs0] eqn:Ex; [cbn in Hl; lia|]. rewrite <- Ex in *. pose proof key_length_any as La.
    destruct (H x0) as [_ (Hkn & Hk' & Ho & Hst & Hw & _)]; [rewrite Ex; apply in_eq|]. apply Hw.
    destruct (after1_commit LMC fA LA ka h (a, at_ ct 0) Ho (eq_trans Ha (eq_sym La))) as (HA & _). fold (after1 ct a h) in HA.
    unfold right_at1 in *.
    assert (Hr : forall x, In x xs -> x <> f0 /\ short (2 ^ k) (fst (next1 (after1 ct a h) (st, e, x))) /\
                   right1 th k b (map snd h ++ [x]) (fst (next1 (after1 ct a h) (st, e, x))) (snd (next1 (after1 ct a h) (st, e, x)))).
    { intros x Hx. destruct (H x Hx) as [H0 (_ & _ & _ & _ & _ & Hx')]. split; [exact H0|]. unfold right_at1 in Hx'. rewrite after1_snoc, map_app in Hx'. exact Hx'. }
    destruct (after1 ct a h) as [A t]. destruct e as [A1 A2]. destruct Hst as [[LA1 _] [LA2 _]]. cbn [fst snd next1] in *.
    rewrite La in *. split.
    - apply (short_three (2 ^ k) n A1 A A2 xs Hnd); auto; [lia|]. intros c Hc. destruct (Hr c Hc) as (H0 & H1 & _). auto.
    - assert (Hri : right1 th k b (map snd h) (firstn (2 ^ k) A) t).
      { apply (round_right1 th (li_bil _ _ LI) k b (map snd h) (firstn (2 ^ k) A1) (firstn (2 ^ k) A) (firstn (2 ^ k) A2)
          (at_ (com_vec (fst st)) 0) t (at_ (com_vec (snd st)) 0) xs Hnd);
          try (rewrite firstn_length; lia); [exact Hl|rewrite map_length; exact Hk'|].
        intros c Hc. destruct (Hr c Hc) as (H0 & _ & F1 & F3). split; [exact H0|].
        assert (Ecs : length (map snd h ++ [c]) <= k) by (rewrite app_length, map_length; cbn; lia).
        assert (EA : forall i, i < 2 ^ k -> at_ (fold3 c A1 A A2) i = at_ (fold3 c (firstn (2 ^ k) A1) (firstn (2 ^ k) A) (firstn (2 ^ k) A2)) i)
          by (intros i Hi; now apply (fold3_firstn (2 ^ k) n)).
        split.
        - eapply fits_ext; [rewrite map_length; exact Ecs|exact EA|exact F1].
        - rewrite F3. apply big_ext. intros i Hi.
          assert (i < 2 ^ k) by (eapply Nat.lt_le_trans; [exact Hi|apply Nat.pow_le_mono_r; lia]). now rewrite EA. }
      destruct Hri as (F1 & F3). split.
      + eapply fits_ext; [rewrite !map_length; lia| |exact F1]. intros i Hi. now apply at_firstn.
      + rewrite F3. apply big_ext. intros i Hi.
        assert (i < 2 ^ k) by (eapply Nat.lt_le_trans; [exact Hi|apply Nat.pow_le_mono_r; lia]). now rewrite !at_firstn.
  Qed.
  Lemma becomes_right_any1_few h st e xs : NoDup xs -> (forall x, In x xs -> x <> f0 /\ becomes_right_any1 h st e x) -> length xs <= 3 * Nat.log2 n.
  Proof using LA LI Hn Hs Hk Ha.
    intros Hnd H. apply (union_bound (fun j x => x <> f0 /\ becomes_right_at1 (S j) h st e x)); [exact Hnd| |].
    - intros x Hx. destruct (H x Hx) as [H0 [[|k] Hb']]; [destruct Hb' as (_ & Hlt & _); lia|]. exists k. split; [|split; [exact H0|exact Hb']].
      destruct Hb' as (Hle & _). apply Nat.log2_le_mono in Hle. rewrite Nat.log2_pow2 in Hle by lia. lia.
    - intros j l _ Hl Hx. exact (becomes_right_at1_few (S j) h st e l Hl Hx).
  Qed.
  Lemma right_at1_dec k h : {right_at1 k h} + {~ right_at1 k h}.
  Proof using.
    clear. unfold right_at1, right1.
    destruct (short_dec (2 ^ k) (fst (after1 ct a h))) as [H4|H4]; [|right; tauto].
    destruct (fits_dec k (map finv (map snd h)) (fst (after1 ct a h))) as [H1|H1]; [|right; tauto].
    match goal with |- {_ /\ _ /\ ?x = ?y} + {_} => destruct (m_eq_dec K MT x y) as [H3|H3]; [left; auto|right; tauto] end.
  Qed.

  Lemma first_claim_wrong_at1 k : 2 ^ k <= n -> ~ right_at1 k [].
  Proof using Ha Hfalse LI Hn.
    intros Hkn Hr. apply Hfalse. unfold right_at1, after1, right1 in Hr. cbn [fold_left map length fst snd] in Hr.
    destruct Hr as (SA & _ & ->). rewrite Nat.sub_0_r.
    assert (Hl : length (powers n b) = n) by apply powers_length'.
    rewrite (li_ip _ _ LI) by congruence. f_equal. rewrite dot_big by congruence. rewrite Ha.
    set (F := fun i => th (at_ a i) (at_ (powers n b : list (fmod K)) i)). change (big n F = big (2 ^ k) (fun i => th (at_ a i) (folded_powers [] (fpow b (2 ^ k)) *f fpow b i))).
    replace n with (2 ^ k + (n - 2 ^ k)) at 1 by lia. rewrite big_split. rewrite (big_ext (n - 2 ^ k) _ (fun _ => m0)).
    - assert (Ez : forall j, big j (fun _ => m0 : MT) = m0) by (induction j as [|j IH]; [reflexivity|cbn [big]; rewrite IH; apply madd_0_l]).
      rewrite Ez, madd_0_r. apply big_ext. intros i Hi. unfold F. f_equal. transitivity (fpow b i).
      + unfold at_, powers. refine (eq_trans (nth_indep _ _ (fpow b 0) _) _); [rewrite map_length, seq_length; lia|].
        refine (eq_trans (map_nth (fpow b) _ _ _) _). now rewrite seq_nth by lia.
      + change (fpow b i = f1 *f fpow b i :> K). ring.
    - intros i Hi. unfold F. rewrite SA by lia. pose proof (li_bil _ _ LI) as B0.
      transitivity (th (f0 *m m0) (at_ (powers n b : list (fmod K)) (2 ^ k + i))); [now rewrite mscale_0_l|]. rewrite (bil_scale_l _ B0). apply mscale_0_l.
  Qed.

  Section Answers.
    Variables (w : list bytes) (Om : list bytes).
    Hypothesis Ow : incl w Om.
    Lemma right_at1_is_bad k steps : 2 ^ k <= n -> forall ts, length steps <= k -> linked f0 challenge_of ok_round pay ask w f0 steps ts ->
      right_at1 k (rounds challenge_of know w steps ts) -> bad_somewhere f0 Om challenge_of ok_round pay ask know becomes_right_any1 w.
    Proof using Ow Ha Hfalse Hknow LI Hn.
      intros Hkn. induction steps as [|st steps IH] using rev_ind; intros ts Hl' Hl Hr.
      - destruct ts; [|contradiction]. exfalso. exact (first_claim_wrong_at1 k Hkn Hr).
      - destruct ts as [|t ts _] using rev_ind; [destruct steps; contradiction|].
        pose proof (proj1 (linked_snoc _ _ _ _ _ _ _ _ _ _ _) Hl) as (Hl1 & _). pose proof (linked_length _ _ _ _ _ _ _ _ _ Hl1) as El.
        rewrite app_length in Hl'. cbn [length] in Hl'.
        destruct (right_at1_dec k (rounds challenge_of know w steps ts)) as [Hy|Hy]; [apply (IH ts); auto; lia|].
        apply (hit_is_bad (f_eq_dec K) f0 Om challenge_of ok_round pay ask know becomes_right_any1 w Ow steps ts st t Hl).
        pose proof (linked_opened1 LMC ka ask know w _ Hknow _ _ Hl) as Ho. rewrite (rounds_snoc _ _ _ _ _ _ _ El) in Hr, Ho.
        apply Forall_app in Ho as [Ho1 Ho2]. inversion Ho2 as [|? ? Ho3 _]; subst. cbn [fst snd] in Ho3.
        exists k. split; [exact Hkn|]. split; [|auto]. unfold rounds. rewrite map_length, combine_length. lia.
    Qed.
  End Answers.

  Hypothesis HN : n <= N.
  Definition lucky_point_any1 (h : past) (ck : pG2 P) (e : comb P) (z : K) : Prop :=
    2 ^ length h <= N /\ Forall (fun c => c <> f0) (map snd h) /\
    ~ (2 ^ length h <= n /\ comb_g2 s e = right_key1 beta (map snd h)) /\ exists o, tssm_relation n e o (map snd h) z = None.

  Lemma lucky_point_any1_few h ck e zs : NoDup zs -> (forall z, In z zs -> lucky_point_any1 h ck e z) -> length zs <= 2 * N - 2.
  Proof using Hs HN Hn.
    clear Ha Ea Hfalse Hknow Hkeys Hk. intros Hz H. destruct (Nat.le_gt_cases (length zs) (2 * N - 2)) as [|Hl]; [assumption|exfalso].
    destruct zs as [|z0 zs0] eqn:Ez; [cbn in Hl; lia|]. rewrite <- Ez in *.
    destruct (H z0) as (Hlen & Hc & Hne & o0 & Ho0); [rewrite Ez; apply in_eq|]. apply Hne.
    destruct (key_poly_same (map finv (rev (map snd h))) f1 (resize (2 * n - 1) f0 (fst e)) zs (2 * N - 1)) as [A1 A2]; auto; try lia.
    { rewrite resize_length. lia. }
    { rewrite map_length, rev_length, map_length. lia. }
    { intros z Hi. destruct (H z Hi) as (_ & _ & _ & o & Ho). apply side_relation_none in Ho. now apply side_check_zero in Ho as [Ho _]. }
    apply side_relation_none in Ho0. apply side_check_zero in Ho0 as [_ Z1]. split.
    - rewrite resize_length, map_length, rev_length, map_length in A2.
      assert (2 * 2 ^ length h - 1 <= 2 * n - 1); [|pose proof (Nat.pow_nonzero 2 (length h)); lia].
      apply A2; [apply f1_neq_f0|]. apply Forall_forall. intros x Hx. apply in_map_iff in Hx as (y & <- & Hy). apply finv_neq0.
      rewrite Forall_forall in Hc. apply Hc. now apply in_rev.
    - unfold right_key1. rewrite (comb_g2_eval s alpha beta n Hs), A1, Z1. f_equal; ring.
  Qed.

  Lemma short_key1 cs : 2 ^ length cs <= n -> right_key1 beta cs = folded_key (firstn (2 ^ length cs) ka) (map finv cs).
  Proof using Hs Hk Hn.
    clear HN Ha Ea Hfalse Hknow Hkeys. intros Hle.
    pose proof (f_equal fst (short_keys s alpha beta n ka kb f1 Hn Hs Hk cs Hle)) as H. unfold right_keys in H. cbn [fst] in H. rewrite finv_1 in H.
    unfold right_key1. rewrite H. f_equal. f_equal. unfold shift_vec. symmetry. apply list_at_ext; [reflexivity|].
    intros i Hi. now rewrite fpow_1_l, mscale_1.
  Qed.

  Lemma tssm_fools_any_bad w Om : incl w Om -> tssm_fools_any (key_of alpha beta) w ->
    bad_last_somewhere f0 Om challenge_of ok_round pay ask know becomes_right_any1 w (f_rand (f := K)) (fun _ => True) point_input1 keys lucky_point_any1.
  Proof using Ha Ea Hfalse Hknow Hkeys LA LI Hn HN Hs Hh Hk.
    intros Ow (D & H16 & HD & Hok & Hlen & Hv & Hq & Hno & Hnr). pose proof key_length_any as La.
    destruct (proj1 (C54_tssm_accepts_iff D fuel E H16 _ _ _ _ _ _ _ _ _) Hv) as (cs & z & v & Hch & _ & Hz & O1 & Ev & E1 & _ & E3).
    set (steps := rev (gp_steps (ts_gipa (out w)))) in *.
    destruct (round_times_found fuel ask w D HD steps f0 cs Hch) as (ts & Ets & Hl & Em); [now apply Forall_rev|intros q H; apply Hq; now left|].
    pose proof (linked_length _ _ _ _ _ _ _ _ _ Hl) as El. pose proof (linked_usable ask w steps _ _ Hl) as Hus. rewrite Em in Hus.
    destruct (point_time_found K ask w D fuel _ z HD Hz) as (m & t & Et & Ht & Eq & Ez).
    { intros q H. apply Hq. right. exists cs. auto. }
    assert (Hcl : length cs = length (gp_steps (ts_gipa (out w)))) by (rewrite <- Em, map_length, <- El; apply rev_length).
    unfold relation_found1, relation_of1 in Hnr. fold steps in Hnr. rewrite Ets in Hnr. cbv zeta in Hnr. rewrite Em, Et, Ez in Hnr.
    destruct Hkeys as [HkA HkO]. pose proof (HkA (firstn t w) m (last cs f0) (ts_final_ck (out w)) Eq) as Ek.
    rewrite (HkO w), <- Ek in O1.
    destruct (tssm_relation n (keys (firstn t w)) (opening w) cs z) as [rel|] eqn:Er.
    { exfalso. apply Hnr. exact (g2_relation_ok s alpha beta n Hn Hs Hh _ _ _ _ rel O1 Er). }
    destruct (rounds_maps1 know w steps ts El) as [M1 M2]. rewrite Em in M2.
    assert (Hbad : ~ (2 ^ length cs <= n /\ comb_g2 s (keys (firstn t w)) = right_key1 beta cs) ->
      bad_last_somewhere f0 Om challenge_of ok_round pay ask know becomes_right_any1 w (f_rand (f := K)) (fun _ => True) point_input1 keys lucky_point_any1).
    { intros Hwrong.
      apply (last_is_bad (f_eq_dec K) f0 Om challenge_of ok_round pay ask know becomes_right_any1 w Ow (f_rand (f := K)) (fun _ => True) point_input1 keys lucky_point_any1
               steps ts t m (ts_final_ck (out w)) z Hl Ht I); [|exact Ez|].
      - unfold answer. rewrite Em. exact Eq.
      - assert (Elr : length (rounds challenge_of know w steps ts) = length cs) by (rewrite <- M2; symmetry; apply map_length).
        unfold lucky_point_any1. rewrite M2, Elr. split; [rewrite Hcl; exact Hlen|]. split; [exact Hus|]. split; [exact Hwrong|eauto]. }
    destruct (Nat.le_gt_cases (2 ^ length cs) n) as [Hle|Hgt]; [|apply Hbad; intros [G _]; lia].
    destruct (m_eq_dec _ _ (comb_g2 s (keys (firstn t w))) (right_key1 beta cs)) as [Hr|Hr]; [|apply Hbad; intros [_ G]; contradiction]. clear Hbad.
    apply bad_somewhere_last. apply (right_at1_is_bad w Om Ow (length cs) steps Hle ts); [unfold steps; rewrite rev_length; lia|exact Hl|].
    rewrite (short_key1 cs Hle) in Hr. rewrite Hr in Ek.
    pose proof (linked_opened1 LMC ka ask know w steps Hknow _ _ Hl) as Ho.
    destruct (after1_commit LMC fA LA ka _ (a, at_ ct 0) Ho (eq_trans Ha (eq_sym La))) as (LA' & CA & CT).
    fold (after1 ct a (rounds challenge_of know w steps ts)) in LA', CA, CT.
    unfold collision_found_any1, two_openings_any1 in Hno. fold steps in Hno. cbv zeta in Hno. rewrite Ets, Em in Hno. unfold right_at1.
    rewrite M1, M2 in CA. rewrite M1, M2 in CT. rewrite M2. destruct (after1 ct a (rounds challenge_of know w steps ts)) as [A u]. cbn [fst snd] in *.
    rewrite (lc_commit _ _ _ LA) in Ea by congruence. injection Ea as Ea'. unfold mid in Ea'. rewrite Ea' in CA.
    rewrite <- Ek in E1. rewrite (lc_single _ _ _ _ _ LA) in E1. injection E1 as E1. unfold mid in E1.
    unfold steps in CA, CT. rewrite cfold1_folded in CA by exact Hcl. rewrite cfold1_folded in CT by exact Hcl.
    set (SA := spread_out (map finv cs) (fst (gp_base (ts_gipa (out w))))) in *.
    assert (LSA : length SA = 2 ^ length cs) by (unfold SA; now rewrite spread_out_length, map_length).
    assert (PA : dot fA ka (pad n SA) = dot fA ka A).
    { rewrite CA, <- E1, <- La, (dot_pad fA ka SA (lc_bil _ _ _ LA)) by lia. rewrite LSA.
      apply (dot_spread_out fA); [apply (lc_bil _ _ _ LA)|]. rewrite firstn_length, map_length. lia. }
    assert (PLA : length (pad n SA) = n) by (apply pad_length; lia). rewrite La in Hno.
    destruct (list_eq_dec (m_eq_dec K MA) A (pad n SA)) as [-> |Hne].
    2:{ exfalso. apply Hno. split; [exact Hne|]. split; [congruence|]. split; [congruence|]. exists (mid (dot fA ka A)).
        rewrite !(lc_commit _ _ _ LA) by congruence. split; congruence. }
    rewrite <- LSA at 1. split; [apply pad_short|]. split.
    - apply (fits_ext _ _ SA); [rewrite map_length; lia|intros i Hi; symmetry; apply at_pad; lia|].
      rewrite <- (map_length finv cs) at 1. apply spread_out_fits.
    - rewrite CT, <- E3, Nat.sub_diag. cbn [Nat.pow big fpow]. rewrite madd_0_l.
      rewrite at_pad by (rewrite LSA; pose proof (Nat.pow_nonzero 2 (length cs)); lia). unfold SA. rewrite at_spread_out_0.
      rewrite (lin_ip_single _ _ _ _ LI) in Ev. injection Ev as <-. f_equal.
      replace (b *f f1) with b by ring. symmetry. change (folded_powers cs b *f f1 = folded_powers cs b). ring.
  Qed.

  Variables (Om : list bytes) (share gamma : nat).
  Hypothesis NOm : NoDup Om.
  Hypothesis Hspread : challenges_spread K Om share.
  Hypothesis Hpoints : points_spread K Om gamma.
  Hypotheses (FF : prefix_free (@fser K)) (FA : prefix_free (@mser K XA)) (FT : prefix_free (@mser K MT)).
  Hypotheses (F2 : prefix_free (@mser K (pG2 P))).
  Variables (Q : nat) (L : list (list bytes)).
  Hypothesis NL : NoDup L.
  Hypothesis HL : forall w, In w L -> length w = Q /\ incl w Om /\ tssm_fools_any (key_of alpha beta) w.

  Lemma tssm_count_any : length L <= (share * (3 * Q + 3 * Nat.log2 n) + gamma * (2 * N - 2)) * Q * length Om ^ (Q - 1).
  Proof using All.
    apply (few_bad_any (list_eq_dec N.eq_dec) Om NOm (share * (3 * Q + 3 * Nat.log2 n) + gamma * (2 * N - 2)) Q
             (bad_last f0 Om challenge_of ok_round pay ask know becomes_right_any1 (f_rand (f := K)) (fun _ => True) point_input1 keys lucky_point_any1) L).
    - intros pre l Hp Hl Hbad.
      etransitivity; [apply (few_bad_last (f_eq_dec K) f0 Om challenge_of ok_round pay
                               (fun n n' v v' z z' => pay_inj (XB := fmod K) n n' v v' z z' FF FA FF FT) ask know share Hspread becomes_right_any1 (3 * Nat.log2 n)
                               becomes_right_any1_few
                               (f_eq_dec K) (f_rand (f := K)) (fun _ => True) point_input1 keys
                               (fun n n' v v' f f' _ _ => point_input1_inj n n' v v' f f' FF F2) gamma Hpoints lucky_point_any1 (2 * N - 2) lucky_point_any1_few pre l Hl Hbad)|].
      rewrite Nat.add_assoc. apply Nat.add_le_mono_r. rewrite <- Nat.mul_add_distr_l. apply Nat.mul_le_mono_l. unfold bytes in *. lia.
    - exact NL.
    - intros w Hw. destruct (HL w Hw) as [H1 [H2 H3]]. split; [exact H1|]. split; [exact H2|]. exact (tssm_fools_any_bad w Om H2 H3).
  Qed.
End AnyRoundsSsm.

(** ** The statements *)
(** As in C103 for vectors of any length n, also one that is not a power of two, and proofs with any number of rounds up to log2 N:
    at most (share (3 Q + 3 log2 n) + gamma (2 N - 2)) Q M^(Q-1) of the M^Q sequences of answers. *)
Definition tipa_any_rounds_sound {R} {P : pairing} {MA MB MT XA XB : module (pK P)}
    (LMC : dhc R MA (pG2 P) (mod_carrier XA)) (RMC : dhc R MB (pG1 P) (mod_carrier XB)) (ip : list MA -> list MB -> res MT) : Prop :=
  pr_g P <> m0 -> pr_h P <> m0 ->
  forall fuel (rand : sampler R (pK P)) rng n s kt0 rng' ka kb v,
  tipa_setup (identity MT) rand rng n = Ok (s, kt0, rng') -> get_commitment_keys s = (ka, kb) -> get_verifier_key s = Ok v ->
  forall r kt ca cb (ct : list MT) a b, length a = n -> length b = n ->
  dh_commit LMC (shift_vec (finv r) ka) a = Ok ca -> dh_commit RMC kb b = Ok cb -> ip a b <> Ok (at_ ct 0) ->
  forall ask know keys out opening, knows_openings LMC RMC (MT := MT) (shift_vec (finv r) ka) kb ask know -> knows_keys s ask keys out opening ->
  forall Om share gamma, NoDup Om -> challenges_spread (pK P) Om share -> points_spread (pK P) Om gamma ->
  prefix_free (@fser (pK P)) -> prefix_free (@mser _ XA) -> prefix_free (@mser _ XB) -> prefix_free (@mser _ MT) ->
  prefix_free (@mser _ (pG1 P)) -> prefix_free (@mser _ (pG2 P)) ->
  forall N Q L, n <= N -> NoDup L ->
  (forall w, In w L -> length w = Q /\ incl w Om /\
     tipa_fools_any LMC RMC ip fuel (fst (rand rng)) (fst (rand (snd (rand rng)))) n N ka kb r kt ca cb ct a b ask know keys out opening v w) ->
  length L <= (share * (3 * Q + 3 * Nat.log2 n) + gamma * (2 * N - 2)) * Q * length Om ^ (Q - 1).

Theorem C105_tipa {R} {P : pairing} {MA MB MT XA XB : module (pK P)} (fA : pG2 P -> MA -> XA) (fB : pG1 P -> MB -> XB) (th : MA -> MB -> MT)
    (LMC : dhc R MA (pG2 P) (mod_carrier XA)) (RMC : dhc R MB (pG1 P) (mod_carrier XB)) (ip : list MA -> list MB -> res MT) :
  lin_commit LMC mid fA -> lin_commit RMC mid fB -> lin_ip ip th -> tipa_any_rounds_sound LMC RMC ip.
Proof.
  intros LA LB LI Hg Hh fuel rand rng n s kt0 rng' ka kb v Hset Hk Hv r kt ca cb ct a b Ha Hb Ea Eb Hf ask know keys out opening Hkn Hkk
    Om share gamma NOm Hs Hp FF FA FB FT F1 F2 N Q L HN NL HL.
  destruct (C21_setup_structure _ _ _ _ _ _ _ Hset) as [Hn0 Hsrs].
  set (alpha := fst (rand rng)) in *. set (beta := fst (rand (snd (rand rng)))) in *.
  assert (Ev : v = key_of alpha beta) by (destruct (C21_keys s alpha beta n Hn0 Hsrs) as [_ E]; rewrite Hv in E; now injection E).
  rewrite Ev in HL.
  exact (tipa_count_any LMC RMC ip fA fB th LA LB LI fuel s alpha beta n N ka kb r kt ca cb ct a b ask know keys out opening Hn0 Hsrs Hg Hh Hk Ha Hb Ea Eb Hf Hkn Hkk
    HN Om share gamma NOm Hs Hp FF FA FB FT F1 F2 Q L NL HL).
Qed.
Print Assumptions C105_tipa.

Theorem C105_pairing R (P : pairing) (E : penv) (r1 : sampler R (pG1 P)) (r2 : sampler R (pG2 P)) : 1 <= threads E ->
  tipa_any_rounds_sound (afgho_g1 P E r2) (afgho_g2 P E r1) (pairing_ip P E).
Proof. intros HE. exact (C105_tipa _ _ _ _ _ _ (afgho_g1_law P E HE r2) (afgho_g2_law P E HE r1) (pairing_ip_law P E HE)). Qed.
Print Assumptions C105_pairing.
Theorem C105_multiexp R (P : pairing) (E : penv) (r1 : sampler R (pG1 P)) (r2 : sampler R (pG2 P)) : 1 <= threads E ->
  tipa_any_rounds_sound (afgho_g1 P E r2) (pedersen (pG1 P) r1) (multiexp_ip (pG1 P)).
Proof. intros HE. exact (C105_tipa _ _ _ _ _ _ (afgho_g1_law P E HE r2) (pedersen_law _ r1) (multiexp_ip_law _)). Qed.
Print Assumptions C105_multiexp.
Theorem C105_scalar R (P : pairing) (E : penv) (r1 : sampler R (pG1 P)) (r2 : sampler R (pG2 P)) :
  tipa_any_rounds_sound (pedersen (pG2 P) r2) (pedersen (pG1 P) r1) (scalar_ip (K := pK P) E : list (fmod (pK P)) -> list (fmod (pK P)) -> res (fmod (pK P))).
Proof. exact (C105_tipa _ _ _ _ _ _ (pedersen_law _ r2) (pedersen_law _ r1) (scalar_ip_law E)). Qed.
Print Assumptions C105_scalar.

(** the same for a committed vector and the powers of b *)
Theorem C105_tipa_ssm {R} {P : pairing} {MA MT XA : module (pK P)} (fA : pG2 P -> MA -> XA) (th : MA -> fmod (pK P) -> MT)
    (LMC : dhc R MA (pG2 P) (mod_carrier XA)) (ip : list MA -> list (fmod (pK P)) -> res MT) :
  lin_commit LMC mid fA -> lin_ip ip th -> pr_h P <> m0 ->
  forall fuel E (rand : sampler R (pK P)) rng n s kt0 rng' ka kb v,
  tipa_setup (identity MT) rand rng n = Ok (s, kt0, rng') -> get_commitment_keys s = (ka, kb) -> get_verifier_key s = Ok v ->
  forall kt ca (ct : list MT) b a, length a = n -> dh_commit LMC ka a = Ok ca -> ip a (powers n b) <> Ok (at_ ct 0) ->
  forall ask know keys out opening, knows_openings1 LMC (MT := MT) ka ask know -> knows_keys1 s ask keys out opening ->
  forall Om share gamma, NoDup Om -> challenges_spread (pK P) Om share -> points_spread (pK P) Om gamma ->
  prefix_free (@fser (pK P)) -> prefix_free (@mser _ XA) -> prefix_free (@mser _ MT) -> prefix_free (@mser _ (pG2 P)) ->
  forall N Q L, n <= N -> NoDup L ->
  (forall w, In w L -> length w = Q /\ incl w Om /\
     tssm_fools_any LMC ip fuel E (fst (rand rng)) (fst (rand (snd (rand rng)))) n N ka kt ca ct b a ask know keys out opening v w) ->
  length L <= (share * (3 * Q + 3 * Nat.log2 n) + gamma * (2 * N - 2)) * Q * length Om ^ (Q - 1).
Proof.
  intros LA LI Hh fuel E rand rng n s kt0 rng' ka kb v Hset Hk Hv kt ca ct b a Ha Ea Hf ask know keys out opening Hkn Hkk
    Om share gamma NOm Hs Hp FF FA FT F2 N Q L HN NL HL.
  destruct (C21_setup_structure _ _ _ _ _ _ _ Hset) as [Hn0 Hsrs].
  set (alpha := fst (rand rng)) in *. set (beta := fst (rand (snd (rand rng)))) in *.
  assert (Ev : v = key_of alpha beta) by (destruct (C21_keys s alpha beta n Hn0 Hsrs) as [_ Ex]; rewrite Hv in Ex; now injection Ex).
  rewrite Ev in HL.
  exact (tssm_count_any LMC ip fA th LA LI fuel E s alpha beta n N ka kb kt ca ct b a ask know keys out opening Hn0 Hsrs Hh Hk Ha Ea Hf Hkn Hkk
    HN Om share gamma NOm Hs Hp FF FA FT F2 Q L NL HL).
Qed.
Print Assumptions C105_tipa_ssm.

(** ** Example: an SRS of size 3, the vectors (2, 3, 0) and (5, 7, 0), and the prover of the example of C103, which sends one round *)
Definition ex105_s : srs ZPair := mk_srs (P := ZPair) (zl [1; 2; 4; 8; 16]%Z) (zl [1; 3; 9; 27; 81]%Z) (zq 3) (zq 2).
Definition ex105_know (w : list bytes) : (list ZM * list ZM) * (list ZM * list ZM) :=
  ((zl [3; 0; 0]%Z, zl [0; 2; 0]%Z), (zl [0; 5; 0]%Z, zl [7; 0; 0]%Z)).

Example C105_example_fools :
  tipa_fools_any (P := ZPair) (afgho_g1 ZPair ex_env1 ex_rand) (afgho_g2 ZPair ex_env1 ex_rand) (pairing_ip ZPair ex_env1) 5 (zq 2) (zq 3) 3 4
    (zl [1; 9; 81]%Z) (zl [1; 4; 16]%Z) (zq 1) tt (zq 29) (zq 33) [zq 32] (zl [2; 3; 0]%Z) (zl [5; 7; 0]%Z) ex103_ask ex105_know ex103_keys ex103_out ex103_opening
    ex96_vsrs ex103_w.
Proof.
  exists (fun _ => ex101_digest 1). split; [intros q; cbn; lia|].
  split; [intros [|[|t]] Ht; [reflexivity|reflexivity|cbn in Ht; lia]|].
  split; [repeat constructor|]. split; [cbn; lia|]. split; [reflexivity|]. split; [|split].
  - intros q [Hq|(cs & Hc & n & Hn & Hno & ->)].
    + exists 0. split; [cbn; lia|].
      inversion Hq as [prev s steps n Hn Hno|prev s steps n v q' Hn Hv Hq']; subst.
      * destruct n as [|n]; [reflexivity|]. specialize (Hno 0 ltac:(lia)). discriminate.
      * inversion Hq'.
    + exists 1. split; [cbn; lia|]. destruct n as [|n]; [|specialize (Hno 0 ltac:(lia)); discriminate].
      assert (Hc' : round_challenges (K := ZP) (fun _ => ex101_digest 1) 5 (f0 : ZP) (rev (gp_steps (tp_gipa (ex103_out ex103_w)))) [zq 1 : ZP]).
      { cbn [round_challenges rev app gp_steps tp_gipa ex103_out]. split; [|exact I]. exists 0, (zq 1). split; [lia|]. split; [|reflexivity].
        split; [reflexivity|intros i Hi; lia]. }
      assert (cs = [zq 1 : ZP]) as ->; [|reflexivity].
      eapply round_challenges_fun; [|exact Hc'|exact Hc]. intros q. cbn. lia.
  - unfold collision_found_any.
    match goal with |- context [match ?x with _ => _ end] =>
      assert (E : x = Some ((zl [5; 5; 0]%Z, zl [5; 5; 0]%Z), (zl [12; 12; 0]%Z, zl [12; 12; 0]%Z))) by reflexivity end.
    rewrite E. intros [[H _]|[H _]]; now apply H.
  - unfold relation_found. match goal with |- context [match ?x with _ => _ end] => assert (E : x = None) by reflexivity end. rewrite E. auto.
Qed.
Example C105_example_hypotheses :
  ex_srs 3 = Ok ex105_s /\ get_commitment_keys ex105_s = (zl [1; 9; 81]%Z, zl [1; 4; 16]%Z) /\
  get_verifier_key ex105_s = Ok ex96_vsrs /\ shift_vec (finv (f1 : ZP)) (zl [1; 9; 81]%Z : list (pG2 ZPair)) = zl [1; 9; 81]%Z /\
  dh_commit (ex_L ex_env1) (zl [1; 9; 81]%Z) (zl [2; 3; 0]%Z) = Ok (zq 29) /\ dh_commit (ex_R ex_env1) (zl [1; 4; 16]%Z) (zl [5; 7; 0]%Z) = Ok (zq 33) /\
  pairing_ip ZPair ex_env1 (zl [2; 3; 0]%Z) (zl [5; 7; 0]%Z) <> Ok (zq 32) /\
  knows_openings (ex_L ex_env1) (ex_R ex_env1) (MT := ZM) (zl [1; 9; 81]%Z) (zl [1; 4; 16]%Z) ex103_ask ex105_know /\
  knows_keys (P := ZPair) (MA := ZM) (MB := ZM) (MT := ZM) (XA := ZM) (XB := ZM) ex105_s ex103_ask ex103_keys ex103_out ex103_opening.
Proof.
  assert (F : prefix_free (@fser ZP)) by exact zp_ser_prefix_free. assert (G : prefix_free (@mser ZP ZM)) by exact zp_ser_prefix_free.
  split; [reflexivity|]. split; [reflexivity|]. split; [reflexivity|]. split; [reflexivity|].
  split; [reflexivity|]. split; [reflexivity|]. split; [discriminate|]. split; [|split].
  - intros w n p s Hs E. destruct w as [|d w]; [|exfalso; exact (ex103_lengths _ _ _ _ _ _ (eq_sym E))]. symmetry in E.
    apply (pay_inj (XA := ZM) (XB := ZM) (MT := ZM) n 0 p f0 s (ex103_c1, ex103_c2) F G G G Hs) in E as [_ ->]; [|split; reflexivity].
    repeat split; reflexivity.
  - intros w m c ck E. destruct w as [|d w]; [exfalso; exact (ex103_lengths 0 f0 (ex103_c1, ex103_c2) _ _ _ E)|].
    apply (point_input_inj (P := ZPair)) in E as [_ <-]; [reflexivity|exact F|exact G|exact G].
  - reflexivity.
Qed.

(** the same with the powers of 4 *)
Definition ex105_know1 (w : list bytes) : list ZM * list ZM := (zl [3; 0; 0]%Z, zl [0; 2; 0]%Z).
Example C105_example_fools_ssm :
  tssm_fools_any (P := ZPair) (afgho_g1 ZPair ex_env1 ex_rand) (multiexp_ip (pG1 ZPair)) 5 ex_env1 (zq 2) (zq 3) 3 4
    (zl [1; 9; 81]%Z) tt (zq 29) [zq 15] (zq 4) (zl [2; 3; 0]%Z) ex103_ask1 ex105_know1 ex103_keys1 ex103_out1 ex103_opening1 ex96_vsrs ex103_w.
Proof.
  exists (fun _ => ex101_digest 1). split; [intros q; cbn; lia|].
  split; [intros [|[|t]] Ht; [reflexivity|reflexivity|cbn in Ht; lia]|].
  split; [repeat constructor|]. split; [cbn; lia|]. split; [reflexivity|]. split; [|split].
  - intros q [Hq|(cs & Hc & n & Hn & Hno & ->)].
    + exists 0. split; [cbn; lia|].
      inversion Hq as [prev s steps n Hn Hno|prev s steps n v q' Hn Hv Hq']; subst.
      * destruct n as [|n]; [reflexivity|]. specialize (Hno 0 ltac:(lia)). discriminate.
      * inversion Hq'.
    + exists 1. split; [cbn; lia|]. destruct n as [|n]; [|specialize (Hno 0 ltac:(lia)); discriminate].
      assert (Hc' : round_challenges (K := ZP) (fun _ => ex101_digest 1) 5 (f0 : ZP) (rev (gp_steps (ts_gipa (ex103_out1 ex103_w)))) [zq 1 : ZP]).
      { cbn [round_challenges rev app gp_steps ts_gipa ex103_out1]. split; [|exact I]. exists 0, (zq 1). split; [lia|]. split; [|reflexivity].
        split; [reflexivity|intros i Hi; lia]. }
      assert (cs = [zq 1 : ZP]) as ->; [|reflexivity].
      eapply round_challenges_fun; [|exact Hc'|exact Hc]. intros q. cbn. lia.
  - unfold collision_found_any1.
    match goal with |- context [match ?x with _ => _ end] => assert (E : x = Some (zl [5; 5; 0]%Z, zl [5; 5; 0]%Z)) by reflexivity end.
    rewrite E. intros [H _]. now apply H.
  - unfold relation_found1. match goal with |- context [match ?x with _ => _ end] => assert (E : x = None) by reflexivity end. rewrite E. auto.
Qed.

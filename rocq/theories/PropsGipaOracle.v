(** Property C101: GIPA as a non-interactive argument, with the hash function as a random oracle, for provers that know
    openings of the commitments they send. *)
Require Import List Arith NArith ZArith Lia Bool Field.
Import ListNotations.
Require Import Verif.Outcome Verif.Algebra Verif.Zp Verif.Rust Verif.InnerProducts Verif.Commitments
  Verif.Gipa Verif.Spec Verif.ListFacts Verif.RustFacts Verif.InnerProductFacts Verif.CommitFacts
  Verif.GipaFacts Verif.GipaComplete Verif.GipaTop Verif.GipaAttack Verif.SerFacts Verif.KeyFacts Verif.PropsBase Verif.PropsGipa
  Verif.Oracle Verif.OracleValues Verif.Rounds Verif.PropsSpecial.

(** the challenge that the loop of [GIPA] derives from a digest: the inverse of the first 128 bits; f0 if there is none *)
Definition challenge_of {K : field} (d : bytes) : K :=
  let v : K := f_ofN (from_be_bytes (firstn 16 d)) in if feqb v f0 then f0 else finv v.

(** at most [beta] of the digests [Om] lead to the same challenge *)
Definition challenges_spread (K : field) (Om : list bytes) (beta : nat) : Prop :=
  forall (x : K) l, x <> f0 -> NoDup l -> (forall d, In d l -> In d Om /\ challenge_of d = x) -> length l <= beta.

(** everything [GIPA::verify] hashes: the inputs with the nonces up to the first usable one, in each round *)
Inductive gipa_hashed {K : field} {OA OB OT : carrier K} (D : bytes -> bytes) (fuel : nat)
  : K -> list (com3 OA OB OT * com3 OA OB OT) -> bytes -> Prop :=
| hashed_here prev s steps n : n < fuel -> (forall i, i < n -> round_value D prev (fst s) (snd s) i = None) ->
    gipa_hashed D fuel prev (s :: steps) (gipa_hash_input n prev (fst s) (snd s))
| hashed_later prev s steps n v q : n < fuel -> first_usable (round_value D prev (fst s) (snd s)) n v ->
    gipa_hashed D fuel (finv v) steps q -> gipa_hashed D fuel prev (s :: steps) q.

Section C101.
  Context {R : Type} {K : field} {MA MB MT KA KB XA XB : module K}.
  Context (LMC : dhc R MA KA (mod_carrier XA)) (RMC : dhc R MB KB (mod_carrier XB)) (ip : list MA -> list MB -> res MT).
  Context (fA : KA -> MA -> XA) (fB : KB -> MB -> XB) (th : MA -> MB -> MT).
  Hypothesis LA : lin_commit LMC mid fA.
  Hypothesis LB : lin_commit RMC mid fB.
  Hypothesis LI : lin_ip ip th.
  Notation com := (com3 (mod_carrier XA) (mod_carrier XB) (identity_output MT)).
  Notation step := (com * com)%type.
  (** openings of the commitments of a round: to A of com_1 and com_2, to B of com_1 and com_2 *)
  Notation openings := ((list MA * list MA) * (list MB * list MB))%type.
  Notation past := (list (step * openings * K)).
  Variable fuel : nat.
  Variables (ka : list KA) (kb : list KB) (kt : unitmod K) (ca : XA) (cb : XB) (ct : list MT) (a : list MA) (b : list MB).

  Definition opens (s : step) (e : openings) : Prop :=
    let '((A1, A2), (B1, B2)) := e in
    (length A1 = length ka /\ dh_commit LMC ka A1 = Ok (grp_a (fst s))) /\ (length A2 = length ka /\ dh_commit LMC ka A2 = Ok (grp_a (snd s))) /\
    (length B1 = length kb /\ dh_commit RMC kb B1 = Ok (grp_b (fst s))) /\ (length B2 = length kb /\ dh_commit RMC kb B2 = Ok (grp_b (snd s))).
  Definition ok_round (s : step) : Prop := u64_bound (length (com_vec (fst s))) /\ u64_bound (length (com_vec (snd s))).

  (** The prover asks for the hash of [ask answers], where [answers] are those to its queries so far, gives openings
      [know answers] of the commitments in that query, and finally sends the proof [out answers]. *)
  Variables (ask : list bytes -> bytes) (know : list bytes -> openings)
    (out : list bytes -> gipa_proof MA MB (mod_carrier XA) (mod_carrier XB) (identity_output MT)).
  Definition knows_openings : Prop :=
    forall w n p (s : step), ok_round s -> ask w = gipa_hash_input n p (fst s) (snd s) -> opens s (know w).

  (** openings and claimed value after the rounds [h] *)
  Definition next (x : list MA * list MB * MT) (y : step * openings * K) : list MA * list MB * MT :=
    let '(A, B, t) := x in
    let '(s, ((A1, A2), (B1, B2)), c) := y in
    (fold3 c A1 A A2, fold3 c B1 B B2, c *m at_ (com_vec (fst s)) 0 +m t +m finv c *m at_ (com_vec (snd s)) 0).
  Definition after (h : past) : list MA * list MB * MT := fold_left next h (a, b, at_ ct 0).

  (** The program that looks for two openings of one commitment: it finds the rounds of the proof among the queries. *)
  Definition time_of (w : list bytes) (q : bytes) : option nat :=
    find (fun t => if list_eq_dec N.eq_dec (ask (firstn t w)) q then true else false) (seq 0 (length w)).
  Fixpoint round_time (w : list bytes) (f n : nat) (prev : K) (s : step) : option nat :=
    match f with
    | O => None
    | S f =>
      match time_of w (gipa_hash_input n prev (fst s) (snd s)) with
      | Some t => if feqb (challenge_of (K := K) (nth t w [])) f0 then round_time w f (S n) prev s else Some t
      | None => None
      end
    end.
  Fixpoint round_times (w : list bytes) (prev : K) (steps : list step) : option (list nat) :=
    match steps with
    | [] => Some []
    | s :: steps =>
      match round_time w fuel 0 prev s with
      | Some t => option_map (cons t) (round_times w (challenge_of (nth t w [])) steps)
      | None => None
      end
    end.
  Definition two_openings (w : list bytes) : option ((list MA * list MA) * (list MB * list MB)) :=
    match round_times w f0 (rev (gp_steps (out w))) with
    | Some ts =>
      let cs := map (fun t => challenge_of (nth t w [])) ts in
      let '(A, B, _) := after (rounds challenge_of know w (rev (gp_steps (out w))) ts) in
      Some ((A, spread_out (map finv cs) (fst (gp_base (out w)))), (B, spread_out cs (snd (gp_base (out w)))))
    | None => None
    end.
  Definition collision_found (w : list bytes) : Prop :=
    match two_openings w with
    | Some ((A, A'), (B, B')) => collides LMC ka A A' \/ collides RMC kb B B'
    | None => False
    end.

  (** With these answers [GIPA::verify] accepts (for a hash function giving these answers, all hashes the verifier needs being
      among the queries), and yet the program does not find two openings of one commitment. *)
  Definition gipa_fools (w : list bytes) : Prop :=
    exists D, digest16 D /\ (forall t, t < length w -> D (ask (firstn t w)) = nth t w []) /\
      Forall ok_round (gp_steps (out w)) /\
      gipa_verify LMC RMC (identity MT) ip D fuel (ka, kb, kt) (ca, cb, ct) (out w) = Ok true /\
      (forall q, gipa_hashed D fuel f0 (rev (gp_steps (out w))) q -> exists t, t < length w /\ ask (firstn t w) = q) /\
      ~ collision_found w.

  (** ** The state *)
  Definition opened (h : past) : Prop := Forall (fun y => opens (fst (fst y)) (snd (fst y))) h.

  Lemma next_commit A B t s e c : opens s e -> length A = length ka -> length B = length kb ->
    let '(A', B', t') := next (A, B, t) (s, e, c) in
    length A' = length ka /\ length B' = length kb /\
    dot fA ka A' = c *m grp_a (fst s) +m dot fA ka A +m finv c *m grp_a (snd s) /\
    dot fB kb B' = c *m grp_b (fst s) +m dot fB kb B +m finv c *m grp_b (snd s) /\
    t' = c *m at_ (com_vec (fst s)) 0 +m t +m finv c *m at_ (com_vec (snd s)) 0.
  Proof using LA LB.
    destruct e as [[A1 A2] [B1 B2]]. intros ((LA1 & EA1) & (LA2 & EA2) & (LB1 & EB1) & (LB2 & EB2)) HA HB.
    cbn [next]. rewrite !fold3_length. split; [exact LA1|]. split; [exact LB1|].
    rewrite (lc_commit _ _ _ LA) in EA1, EA2 by congruence. rewrite (lc_commit _ _ _ LB) in EB1, EB2 by congruence.
    injection EA1 as <-. injection EA2 as <-. injection EB1 as <-. injection EB2 as <-. unfold mid.
    pose proof (lc_bil _ _ _ LA) as BA. pose proof (lc_bil _ _ _ LB) as BB. unfold fold3.
    split; [|split; [|reflexivity]]; rewrite !dot_vadd_r, !dot_vscale_r by (rewrite ?vadd_length, ?vscale_length; auto; congruence); reflexivity.
  Qed.

  Lemma after_commit (h : past) : forall A B t, opened h -> length A = length ka -> length B = length kb ->
    let '(A', B', t') := fold_left next h (A, B, t) in
    length A' = length ka /\ length B' = length kb /\
    dot fA ka A' = cfold1 (O := mod_carrier XA) grp_a (dot fA ka A) (map (fun y => fst (fst y)) h) (map snd h) /\
    dot fB kb B' = cfold1 (O := mod_carrier XB) grp_b (dot fB kb B) (map (fun y => fst (fst y)) h) (map snd h) /\
    t' = cfold1 (O := mod_carrier MT) (fun c : com => at_ (com_vec c) 0) t (map (fun y => fst (fst y)) h) (map snd h).
  Proof using LA LB.
    induction h as [|[[s e] c] h IH]; intros A B t Ho HA HB; [cbn; auto|].
    inversion Ho as [|? ? Hs Ho']; subst. cbn [fst snd] in Hs.
    pose proof (next_commit A B t s e c Hs HA HB) as Hn. cbn [fold_left map fst snd cfold1].
    destruct (next (A, B, t) (s, e, c)) as [[A1 B1] t1]. destruct Hn as (H1 & H2 & H3 & H4 & H5).
    specialize (IH A1 B1 t1 Ho' H1 H2). destruct (fold_left next h (A1, B1, t1)) as [[A2 B2] t2].
    destruct IH as (G1 & G2 & G3 & G4 & G5). rewrite H3 in G3. rewrite H4 in G4. rewrite H5 in G5. auto.
  Qed.

  Lemma after_snoc (h : past) y : after (h ++ [y]) = next (after h) y.
  Proof using. unfold after. now rewrite fold_left_app. Qed.

  (** ** Claims that become right *)
  Definition right_after (h : past) : Prop :=
    let '(A, B, t) := after h in right_claim th (Nat.log2 (length ka)) (map snd h) A B t.
  Definition becomes_right (h : past) (s : step) (e : openings) (c : K) : Prop :=
    (exists k, length ka = 2 ^ k /\ length kb = 2 ^ k /\ length h < k) /\ opened h /\ opens s e /\
    ~ right_after h /\ right_after (h ++ [(s, e, c)]).

  Lemma becomes_right_few h s e xs : length a = length ka -> length b = length kb ->
    NoDup xs -> (forall x, In x xs -> x <> f0 /\ becomes_right h s e x) -> length xs <= 3.
  Proof using LA LB LI.
    intros Ha Hb Hn H. destruct (Nat.le_gt_cases (length xs) 3) as [|Hl]; [assumption|exfalso].
    destruct xs as [|x0 xs0] eqn:Ex; [cbn in Hl; lia|]. rewrite <- Ex in *.
    destruct (H x0) as [_ ((k & Hka & Hkb & Hk) & Ho & Hs & Hw & _)]; [rewrite Ex; apply in_eq|]. apply Hw.
    pose proof (after_commit h a b (at_ ct 0) Ho Ha Hb) as Hc. unfold right_after in *. fold (after h) in Hc.
    assert (Hr : forall x, In x xs -> x <> f0 /\ let '(A, B, t) := next (after h) (s, e, x) in right_claim th (Nat.log2 (length ka)) (map snd h ++ [x]) A B t).
    { intros x Hx. destruct (H x Hx) as [H0 (_ & _ & _ & _ & Hx')]. split; [exact H0|]. unfold right_after in Hx'. rewrite after_snoc, map_app in Hx'. exact Hx'. }
    destruct (after h) as [[A B] t]. destruct Hc as (HA & HB & _). rewrite Hka, Nat.log2_pow2 in * by lia.
    destruct e as [[A1 A2] [B1 B2]]. destruct Hs as ((LA1 & _) & (LA2 & _) & (LB1 & _) & (LB2 & _)). cbn [next] in Hr.
    apply (round_right th (li_bil _ _ LI) k (map snd h) A1 A A2 B1 B B2 (at_ (com_vec (fst s)) 0) t (at_ (com_vec (snd s)) 0) xs Hn); first [exact Hr|rewrite map_length; exact Hk|congruence|exact Hl].
  Qed.

  Lemma all_below_dec (p : nat -> Prop) n : (forall i, i < n -> {p i} + {~ p i}) -> {forall i, i < n -> p i} + {~ forall i, i < n -> p i}.
  Proof using.
    clear. induction n as [|n IH]; intros H; [left; intros i Hi; lia|].
    destruct IH as [Hy|Hy]; [intros i Hi; apply H; lia| |right; intros G; apply Hy; intros i Hi; apply G; lia].
    destruct (H n (Nat.lt_succ_diag_r n)) as [Hn|Hn]; [left|right; intros G; apply Hn, G; lia].
    intros i Hi. destruct (Nat.eq_dec i n) as [->|]; [exact Hn|apply Hy; lia].
  Qed.
  Lemma fits_dec {M : module K} k xs (w : list M) : {fits k xs w} + {~ fits k xs w}.
  Proof using.
    clear. destruct (all_below_dec (fun j => forall i, i < 2 ^ (k - 1 - j) -> at_ w (2 ^ (k - 1 - j) + i) = fat xs j *m at_ w i) (length xs)) as [H|H].
    - intros j _. apply all_below_dec. intros i _. apply m_eq_dec.
    - left. intros j i Hj Hi. now apply H.
    - right. intros G. apply H. intros j Hj i Hi. now apply G.
  Qed.
  Lemma right_after_dec h : {right_after h} + {~ right_after h}.
  Proof using.
    clear. unfold right_after, right_claim. destruct (after h) as [[A B] t].
    destruct (fits_dec (Nat.log2 (length ka)) (map finv (map snd h)) A) as [H1|H1]; [|right; tauto].
    destruct (fits_dec (Nat.log2 (length ka)) (map snd h) B) as [H2|H2]; [|right; tauto].
    destruct (m_eq_dec K MT t (big (2 ^ (Nat.log2 (length ka) - length (map snd h))) (fun i => th (at_ A i) (at_ B i)))) as [H3|H3]; [left; auto|right; tauto].
  Qed.
  (** ** The rounds of the proof among the queries *)
  Definition pay (n : nat) (v : K) (z : step) : bytes := gipa_hash_input n v (fst z) (snd z).
  Lemma pay_inj n n' v v' z z' : prefix_free (@fser K) -> prefix_free (@mser K XA) -> prefix_free (@mser K XB) -> prefix_free (@mser K MT) ->
    ok_round z -> ok_round z' -> pay n v z = pay n' v' z' -> v = v' /\ z = z'.
  Proof using.
    clear. intros HF HA HB HT [L1 L2] [L3 L4]. destruct z as [[[a1 b1] t1] [[a2 b2] t2]], z' as [[[a1' b1'] t1'] [[a2' b2'] t2']].
    unfold pay, gipa_hash_input. cbn [fst snd com_vec] in *. intros E.
    apply app_same_length in E as [_ E]; [|now rewrite !usize_be_length].
    apply HF in E as [-> E]. apply HA in E as [-> E]. apply HB in E as [-> E].
    apply (ser_list_prefix mser HT) in E as [-> E]; auto.
    apply HA in E as [-> E]. apply HB in E as [-> E].
    match type of E with ?x = ?y => rewrite <- (app_nil_r x), <- (app_nil_r y) in E end.
    apply (ser_list_prefix mser HT) in E as [-> _]; auto.
  Qed.

  Lemma time_of_asked w q : (exists t, t < length w /\ ask (firstn t w) = q) -> exists t, time_of w q = Some t /\ t < length w /\ ask (firstn t w) = q.
  Proof using.
    intros [t [Ht E]]. unfold time_of. destruct (find _ _) as [u|] eqn:Ef.
    - apply find_some in Ef as [Hi Hb]. apply in_seq in Hi. destruct (list_eq_dec _ _ _) as [Eu|]; [|discriminate]. exists u. repeat split; auto. lia.
    - assert (Hi : In t (seq 0 (length w))) by (apply in_seq; lia). pose proof (find_none _ _ Ef t Hi) as Hb. cbn in Hb.
      destruct (list_eq_dec _ _ _) as [|Hne]; [discriminate|contradiction].
  Qed.

  Section Answers.
    Variables (w : list bytes) (D : bytes -> bytes).
    Hypothesis HD : forall t, t < length w -> D (ask (firstn t w)) = nth t w [].

    Lemma answer_usable t n prev (s : step) v : t < length w -> ask (firstn t w) = gipa_hash_input n prev (fst s) (snd s) ->
      round_value D prev (fst s) (snd s) n = Some v -> challenge_of (nth t w []) = finv v /\ finv v <> f0.
    Proof using HD.
      intros Ht Eq Hv. rewrite <- (HD t Ht), Eq. unfold round_value in Hv. unfold challenge_of.
      generalize dependent (f_ofN (f := K) (from_be_bytes (firstn 16 (D (gipa_hash_input n prev (fst s) (snd s)))))). intros x Hv.
      destruct (feqb x f0) eqn:Ez; [discriminate|]. injection Hv as <-. split; [reflexivity|]. apply finv_neq0.
      intros E0. rewrite E0 in Ez. assert (Hz : feqb (f0 : K) f0 = true) by now apply feqb_spec. congruence.
    Qed.
    Lemma answer_unusable t n prev (s : step) : t < length w -> ask (firstn t w) = gipa_hash_input n prev (fst s) (snd s) ->
      round_value D prev (fst s) (snd s) n = None -> feqb (challenge_of (K := K) (nth t w [])) f0 = true.
    Proof using HD.
      intros Ht Eq Hv. rewrite <- (HD t Ht), Eq. unfold round_value in Hv. unfold challenge_of.
      generalize dependent (f_ofN (f := K) (from_be_bytes (firstn 16 (D (gipa_hash_input n prev (fst s) (snd s)))))). intros x Hv.
      destruct (feqb x f0) eqn:Ez; [now apply feqb_spec|discriminate].
    Qed.

    Lemma round_time_found prev (s : step) n v : first_usable (round_value D prev (fst s) (snd s)) n v ->
      (forall i, i <= n -> exists t, t < length w /\ ask (firstn t w) = gipa_hash_input i prev (fst s) (snd s)) ->
      forall d i f, i + d = n -> d < f ->
      exists t, round_time w f i prev s = Some t /\ t < length w /\ ask (firstn t w) = gipa_hash_input n prev (fst s) (snd s) /\
        challenge_of (nth t w []) = finv v /\ finv v <> f0.
    Proof using HD.
      intros [Hv Hno] Hq. induction d as [|d IH]; intros i f Ei Hf; (destruct f as [|f]; [lia|]); cbn [round_time].
      - assert (i = n) by lia. subst i. destruct (time_of_asked w _ (Hq n (le_n n))) as [t (-> & Ht & Et)].
        destruct (answer_usable t n prev s v Ht Et Hv) as [Ec Hc]. rewrite Ec.
        destruct (feqb (finv v) f0) eqn:Ez; [apply feqb_spec in Ez; contradiction|]. exists t. auto.
      - destruct (time_of_asked w _ (Hq i ltac:(lia))) as [t (-> & Ht & Et)].
        rewrite (answer_unusable t i prev s Ht Et (Hno i ltac:(lia))). apply IH; lia.
    Qed.

    Lemma round_times_found steps : forall prev cs, round_challenges D fuel prev steps cs -> Forall ok_round steps ->
      (forall q, gipa_hashed D fuel prev steps q -> exists t, t < length w /\ ask (firstn t w) = q) ->
      exists ts, round_times w prev steps = Some ts /\ linked f0 challenge_of ok_round pay ask w prev steps ts /\
        map (fun t => challenge_of (nth t w [])) ts = cs.
    Proof using HD.
      induction steps as [|s steps IH]; intros prev [|c cs] Hc Hok Hq; cbn [round_challenges] in Hc; try contradiction.
      - exists []. cbn. auto.
      - destruct Hc as [(n & v & Hn & Hv & ->) Hc]. inversion Hok as [|? ? Hs Hok']; subst.
        destruct (round_time_found prev s n v Hv) with (d := n) (i := 0) (f := fuel) as (t & Et & Ht & Eq & Ec & H0); auto.
        { intros i Hi. apply Hq. apply hashed_here; [lia|]. intros j Hj. apply Hv. lia. }
        destruct (IH (finv v) cs Hc Hok') as (ts & Ets & Hl & Em).
        { intros q Hh. apply Hq. apply (hashed_later D fuel prev s steps n v q Hn Hv Hh). }
        exists (t :: ts). cbn [round_times linked map]. unfold answer, query. rewrite Et, Ec, Ets, Em.
        split; [reflexivity|]. split; [|reflexivity]. split; [exact Ht|]. split; [exact Hs|]. split; [exists n; exact Eq|]. split; [exact H0|exact Hl].
    Qed.

    Lemma linked_opened steps : knows_openings -> forall prev ts, linked f0 challenge_of ok_round pay ask w prev steps ts ->
      opened (rounds challenge_of know w steps ts).
    Proof using.
      clear. intros Hk. induction steps as [|s steps IH]; intros prev [|t ts] Hl; try (constructor; fail).
      destruct Hl as (Ht & Hs & [n Hn] & _ & Hl). cbn. constructor; [|now apply (IH _ _ Hl)].
      cbn [fst snd]. now apply (Hk _ n prev).
    Qed.
    Lemma rounds_maps (steps : list step) : forall ts, length steps = length ts ->
      map (fun y => fst (fst y)) (rounds (challenge_of (K := K)) know w steps ts) = steps /\
      map snd (rounds (challenge_of (K := K)) know w steps ts) = map (fun t => challenge_of (K := K) (nth t w [])) ts.
    Proof using.
      clear. induction steps as [|s steps IH]; intros [|t ts] Hl; try discriminate; [now split|].
      destruct (IH ts) as [E1 E2]; [now injection Hl|]. unfold rounds in *. cbn [combine map fst snd]. rewrite E1, E2. now split.
    Qed.

    Variable Om : list bytes.
    Hypothesis Ow : incl w Om.
    Notation bad_there := (bad_somewhere f0 Om challenge_of ok_round pay ask know becomes_right w).
    Lemma right_is_bad k steps : length ka = 2 ^ k -> length kb = 2 ^ k -> knows_openings -> ~ right_after [] ->
      forall ts, length steps <= k -> linked f0 challenge_of ok_round pay ask w f0 steps ts -> right_after (rounds challenge_of know w steps ts) -> bad_there.
    Proof using Ow.
      intros Hka Hkb Hkn H0. induction steps as [|s steps IH] using rev_ind; intros ts Hk Hl Hr.
      - destruct ts; contradiction.
      - destruct ts as [|t ts _] using rev_ind; [destruct steps; contradiction|].
        pose proof (proj1 (linked_snoc _ _ _ _ _ _ _ _ _ _ _) Hl) as (Hl' & _). pose proof (linked_length _ _ _ _ _ _ _ _ _ Hl') as El.
        rewrite app_length in Hk. cbn [length] in Hk.
        destruct (right_after_dec (rounds challenge_of know w steps ts)) as [Hy|Hy]; [apply (IH ts); auto; lia|].
        apply (hit_is_bad (f_eq_dec K) f0 Om challenge_of ok_round pay ask know becomes_right w Ow steps ts s t Hl).
        pose proof (linked_opened _ Hkn _ _ Hl) as Ho. rewrite (rounds_snoc _ _ _ _ _ _ _ El) in Hr, Ho.
        apply Forall_app in Ho as [Ho1 Ho2]. inversion Ho2 as [|? ? Ho3 _]; subst. cbn [fst snd] in Ho3.
        unfold becomes_right. split; [exists k; do 2 (split; [assumption|])|auto].
        unfold rounds. rewrite map_length, combine_length. lia.
    Qed.
  End Answers.

  Lemma dot_spread_out {M N X : module K} (f : N -> M -> X) (ck : list N) xs m : bilinear f -> length ck = 2 ^ length xs ->
    dot f ck (spread_out xs m) = f (folded_key ck xs) m.
  Proof using.
    clear. intros Hf Hl. rewrite dot_big by now rewrite spread_out_length. unfold folded_key.
    assert (E : forall n F, f (big n F) m = big n (fun i => f (F i) m)).
    { induction n as [|n IH]; intros F; cbn [big].
      - transitivity (f (f0 *m m0) m); [now rewrite mscale_0_l|]. rewrite (bil_scale_l f Hf). apply mscale_0_l.
      - now rewrite (bil_add_l f Hf), IH. }
    rewrite E. apply big_ext. intros i Hi. rewrite at_spread_out by lia. now rewrite (bil_scale_l f Hf), (bil_scale_r f Hf).
  Qed.

  Section Statement.
    Hypotheses (Ha : length a = length ka) (Hb : length b = length kb).
    Hypotheses (Ea : dh_commit LMC ka a = Ok ca) (Eb : dh_commit RMC kb b = Ok cb).
    Hypothesis Hfalse : ip a b <> Ok (at_ ct 0).
    Hypothesis Hknow : knows_openings.

    Lemma first_claim_wrong k : length ka = 2 ^ k -> length kb = 2 ^ k -> ~ right_after [].
    Proof using Ha Hb Hfalse LI.
      intros Hka Hkb Hr. apply Hfalse. unfold right_after, after, right_claim in Hr. cbn [fold_left map length] in Hr.
      destruct Hr as (_ & _ & ->). rewrite Nat.sub_0_r, Hka, Nat.log2_pow2 by lia.
      rewrite (li_ip _ _ LI) by congruence. f_equal. rewrite dot_big by congruence. now rewrite Ha, Hka.
    Qed.

    Lemma fools_bad w Om : incl w Om -> gipa_fools w ->
      bad_somewhere f0 Om challenge_of ok_round pay ask know becomes_right w.
    Proof using Ha Hb Ea Eb Hfalse Hknow LA LB LI.
      intros Ow (D & H16 & HD & Hok & Hv & Hq & Hno).
      apply C12_accepts_iff_identity in Hv as (cs & v & Hch & Hka & Hkb & Ev & E1 & E2 & _ & E3); [|exact H16].
      set (steps := rev (gp_steps (out w))) in *.
      destruct (round_times_found w D HD steps f0 cs Hch) as (ts & Ets & Hl & Em); [now apply Forall_rev|exact Hq|].
      pose proof (linked_length _ _ _ _ _ _ _ _ _ Hl) as El. pose proof (linked_opened w steps Hknow _ _ Hl) as Ho.
      assert (Hcl : length cs = length (gp_steps (out w))) by (rewrite <- Em, map_length, <- El; apply rev_length).
      set (k := length (gp_steps (out w))) in *.
      apply (right_is_bad w Om Ow k steps Hka Hkb Hknow (first_claim_wrong k Hka Hkb) ts); [unfold steps; now rewrite rev_length|exact Hl|].
      destruct (rounds_maps w steps ts El) as [M1 M2]. rewrite Em in M2.
      pose proof (after_commit _ a b (at_ ct 0) Ho Ha Hb) as Hc. fold (after (rounds challenge_of know w steps ts)) in Hc.
      unfold collision_found, two_openings in Hno. fold steps in Hno. rewrite Ets, Em in Hno. unfold right_after.
      rewrite M1, M2 in Hc. rewrite M2. destruct (after (rounds challenge_of know w steps ts)) as [[A B] t].
      destruct Hc as (LA' & LB' & CA & CB & CT).
      rewrite (lc_commit _ _ _ LA) in Ea by congruence. rewrite (lc_commit _ _ _ LB) in Eb by congruence.
      injection Ea as Ea'. injection Eb as Eb'. unfold mid in Ea', Eb'. rewrite Ea' in CA. rewrite Eb' in CB.
      rewrite (lc_single _ _ _ _ _ LA) in E1. rewrite (lc_single _ _ _ _ _ LB) in E2. injection E1 as E1. injection E2 as E2. unfold mid in E1, E2.
      unfold steps in CA, CB, CT. rewrite cfold1_folded in CA by exact Hcl. rewrite cfold1_folded in CB by exact Hcl. rewrite cfold1_folded in CT by exact Hcl.
      rewrite <- E1, <- dot_spread_out in CA by (rewrite ?map_length, ?Hcl; auto; apply (lc_bil _ _ _ LA)).
      rewrite <- E2, <- dot_spread_out in CB by (rewrite ?Hcl; auto; apply (lc_bil _ _ _ LB)).
      set (SA := spread_out (map finv cs) (fst (gp_base (out w)))) in *. set (SB := spread_out cs (snd (gp_base (out w)))) in *.
      assert (LSA : length SA = length ka) by (unfold SA; rewrite spread_out_length, map_length; congruence).
      assert (LSB : length SB = length kb) by (unfold SB; rewrite spread_out_length; congruence).
      destruct (list_eq_dec (m_eq_dec K MA) A SA) as [-> |Hne];
        [|exfalso; apply Hno; left; split; [exact Hne|]; do 2 (split; [assumption|]); exists (mid (dot fA ka A)); rewrite !(lc_commit _ _ _ LA) by congruence; split; congruence].
      destruct (list_eq_dec (m_eq_dec K MB) B SB) as [-> |Hne];
        [|exfalso; apply Hno; right; split; [exact Hne|]; do 2 (split; [assumption|]); exists (mid (dot fB kb B)); rewrite !(lc_commit _ _ _ LB) by congruence; split; congruence].
      rewrite Hka, Nat.log2_pow2 by lia. unfold right_claim.
      replace k with (length (map finv cs)) at 1 by (rewrite map_length; exact Hcl). split; [apply spread_out_fits|].
      replace k with (length cs) at 1 by exact Hcl. split; [apply spread_out_fits|].
      rewrite CT, <- E3, <- Hcl, Nat.sub_diag. cbn [Nat.pow big]. rewrite madd_0_l. unfold SA, SB. rewrite !at_spread_out_0.
      rewrite (lin_ip_single _ _ _ _ LI) in Ev. now injection Ev.
    Qed.

    Variables (Om : list bytes) (beta : nat).
    Hypothesis NOm : NoDup Om.
    Hypothesis Hspread : challenges_spread K Om beta.
    Hypotheses (FF : prefix_free (@fser K)) (FA : prefix_free (@mser K XA)) (FB : prefix_free (@mser K XB)) (FT : prefix_free (@mser K MT)).
    Variables (Q : nat) (L : list (list bytes)).
    Hypothesis NL : NoDup L.
    Hypothesis HL : forall w, In w L -> length w = Q /\ incl w Om /\ gipa_fools w.

    (** of the M^Q sequences of answers to Q queries *)
    Theorem C101_gipa_sound : length L <= beta * (2 * Q + 2) * Q * length Om ^ (Q - 1).
    Proof using Ha Hb Ea Eb Hfalse Hknow LA LB LI NOm Hspread FF FA FB FT NL HL.
      apply (few_bad_any (list_eq_dec N.eq_dec) Om NOm (beta * (2 * Q + 2)) Q (bad f0 Om challenge_of ok_round pay ask know becomes_right) L).
      - intros pre l Hp Hl Hbad.
        etransitivity; [apply (few_bad_answers (f_eq_dec K) f0 Om challenge_of ok_round pay
                                 (fun n n' v v' z z' => pay_inj n n' v v' z z' FF FA FB FT) ask know beta Hspread becomes_right 3
                                 (fun h z r xs => becomes_right_few h z r xs Ha Hb) pre l Hl Hbad)|].
        apply Nat.mul_le_mono_l. unfold bytes in *. lia.
      - exact NL.
      - intros w Hw. destruct (HL w Hw) as [H1 [H2 H3]]. split; [exact H1|]. split; [exact H2|]. exact (fools_bad w Om H2 H3).
    Qed.
  End Statement.
End C101.
Print Assumptions C101_gipa_sound.

(** The statement for given commitments and inner product: for a false statement (ca, cb, ct) whose openings a, b are known, of
    the M^Q sequences of answers to the prover's Q queries at most beta (2 Q + 2) Q M^(Q-1) make it succeed. *)
Definition oracle_sound {R} {K : field} {MA MB MT KA KB XA XB : module K}
    (LMC : dhc R MA KA (mod_carrier XA)) (RMC : dhc R MB KB (mod_carrier XB)) (ip : list MA -> list MB -> res MT) : Prop :=
  forall fuel ka kb kt ca cb (ct : list MT) a b, length a = length ka -> length b = length kb ->
  dh_commit LMC ka a = Ok ca -> dh_commit RMC kb b = Ok cb -> ip a b <> Ok (at_ ct 0) ->
  forall ask know out, knows_openings LMC RMC (MT := MT) ka kb ask know ->
  forall Om beta, NoDup Om -> challenges_spread K Om beta ->
  prefix_free (@fser K) -> prefix_free (@mser K XA) -> prefix_free (@mser K XB) -> prefix_free (@mser K MT) ->
  forall Q L, NoDup L ->
  (forall w, In w L -> length w = Q /\ incl w Om /\ gipa_fools LMC RMC ip fuel ka kb kt ca cb ct a b ask know out w) ->
  length L <= beta * (2 * Q + 2) * Q * length Om ^ (Q - 1).

Lemma oracle_sound_lin {R} {K : field} {MA MB MT KA KB XA XB : module K}
    (LMC : dhc R MA KA (mod_carrier XA)) (RMC : dhc R MB KB (mod_carrier XB)) (ip : list MA -> list MB -> res MT) fA fB th :
  lin_commit LMC mid fA -> lin_commit RMC mid fB -> lin_ip ip th -> oracle_sound LMC RMC ip.
Proof.
  intros LA LB LI fuel ka kb kt ca cb ct a b Ha Hb Ea Eb Hf ask know out Hk Om beta NOm Hs FF FA FB FT Q L NL HL.
  exact (C101_gipa_sound LMC RMC ip fA fB th LA LB LI fuel ka kb kt ca cb ct a b ask know out Ha Hb Ea Eb Hf Hk Om beta NOm Hs FF FA FB FT Q L NL HL).
Qed.

Theorem C101_pairing R (P : pairing) (E : penv) (r1 : sampler R (pG1 P)) (r2 : sampler R (pG2 P)) : 1 <= threads E ->
  oracle_sound (afgho_g1 P E r2) (afgho_g2 P E r1) (pairing_ip P E).
Proof. intros HE. exact (oracle_sound_lin _ _ _ _ _ _ (afgho_g1_law P E HE r2) (afgho_g2_law P E HE r1) (pairing_ip_law P E HE)). Qed.
Print Assumptions C101_pairing.
Theorem C101_multiexp R (P : pairing) (E : penv) (r1 : sampler R (pG1 P)) (r2 : sampler R (pG2 P)) : 1 <= threads E ->
  oracle_sound (afgho_g1 P E r2) (pedersen (pG1 P) r1) (multiexp_ip (pG1 P)).
Proof. intros HE. exact (oracle_sound_lin _ _ _ _ _ _ (afgho_g1_law P E HE r2) (pedersen_law _ r1) (multiexp_ip_law _)). Qed.
Print Assumptions C101_multiexp.
Theorem C101_scalar R (K : field) (E : penv) (G H : module K) (rg : sampler R G) (rh : sampler R H) :
  oracle_sound (pedersen G rg) (pedersen H rh) (scalar_ip (K := K) E : list (fmod K) -> list (fmod K) -> res (fmod K)).
Proof. exact (oracle_sound_lin _ _ _ _ _ _ (pedersen_law _ rg) (pedersen_law _ rh) (scalar_ip_law E)). Qed.
Print Assumptions C101_scalar.

(** ** How many digests lead to the same challenge *)
Fixpoint all_bytes (n : nat) : list bytes :=
  match n with O => [[]] | S n => flat_map (fun x => map (cons (N.of_nat x)) (all_bytes n)) (seq 0 256) end.
Lemma all_bytes_length n : length (all_bytes n) = 256 ^ n.
Proof.
  assert (Hf : forall A (f : nat -> list A) c l, (forall x, length (f x) = c) -> length (flat_map f l) = length l * c).
  { intros A f c l Hf. induction l as [|x l IHl]; [reflexivity|]. cbn [flat_map length Nat.mul]. now rewrite app_length, Hf, IHl. }
  induction n as [|n IH]; [reflexivity|]. cbn [all_bytes]. rewrite Nat.pow_succ_r', (Hf _ _ (256 ^ n)); [now rewrite seq_length|].
  intros x. now rewrite map_length.
Qed.
Lemma all_bytes_in n d : length d = n -> Forall (fun x => (x < 256)%N) d -> In d (all_bytes n).
Proof.
  revert d. induction n as [|n IH]; intros [|x d] Hl Hb; try discriminate; [now left|].
  inversion Hb; subst. cbn [all_bytes]. apply in_flat_map. exists (N.to_nat x). split; [apply in_seq; lia|].
  rewrite N2Nat.id. apply in_map. apply IH; auto.
Qed.
Lemma be_bytes_inj : forall b b' acc acc', length b = length b' -> Forall (fun x => (x < 256)%N) b -> Forall (fun x => (x < 256)%N) b' ->
  fold_left (fun acc x => (acc * 256 + x)%N) b acc = fold_left (fun acc x => (acc * 256 + x)%N) b' acc' -> acc = acc' /\ b = b'.
Proof.
  induction b as [|x b IH]; intros [|x' b'] acc acc' Hl Hb Hb' E; try discriminate; [now split|].
  inversion Hb; subst. inversion Hb'; subst. cbn [fold_left] in E. apply IH in E as [E ->]; auto.
  assert (acc = acc' /\ x = x') as [-> ->] by lia. now split.
Qed.
Lemma from_be_bytes_lt b : length b = 16 -> Forall (fun x => (x < 256)%N) b -> (from_be_bytes b < 2 ^ 128)%N.
Proof.
  intros Hl Hb.
  assert (H : forall b acc, Forall (fun x => (x < 256)%N) b ->
            (fold_left (fun acc x => acc * 256 + x) b acc < (acc + 1) * 256 ^ N.of_nat (length b))%N).
  { clear. induction b as [|x b IH]; intros acc Hb; [cbn; lia|]. inversion Hb as [|? ? Hx Hb']; subst. cbn [fold_left length].
    rewrite Nat2N.inj_succ, N.pow_succ_r'. specialize (IH (acc * 256 + x)%N Hb').
    assert ((acc * 256 + x + 1) * 256 ^ N.of_nat (length b) <= (256 * acc + 256) * 256 ^ N.of_nat (length b))%N
      by (apply N.mul_le_mono_r; lia). lia. }
  specialize (H b 0%N Hb). rewrite Hl in H. exact H.
Qed.

(** of all digests of 16 + m bytes, a share of at most 2^-128 leads to a given challenge, in a field in which the integers below
    2^128 are different *)
Theorem C101_spread (K : field) m (Om : list bytes) :
  (forall x y, (x < 2 ^ 128)%N -> (y < 2 ^ 128)%N -> f_ofN (f := K) x = f_ofN y -> x = y) ->
  (forall d, In d Om -> length d = 16 + m /\ Forall (fun x => (x < 256)%N) d) ->
  challenges_spread K Om (256 ^ m).
Proof.
  intros Hinj HOm x l Hx Hn Hl. rewrite <- all_bytes_length.
  replace (length l) with (length (map (skipn 16) l)) by apply map_length.
  assert (Hlt : forall d, In d Om -> (from_be_bytes (firstn 16 d) < 2 ^ 128)%N).
  { intros d Hd. destruct (HOm d Hd) as [H1 H2]. apply from_be_bytes_lt; [rewrite firstn_length; lia|].
    rewrite <- (firstn_skipn 16 d) in H2. now apply Forall_app in H2 as [H2 _]. }
  apply NoDup_incl_length.
  - assert (Hi : forall d d', In d l -> In d' l -> skipn 16 d = skipn 16 d' -> d = d').
    { intros d d' Hd Hd' Es. destruct (Hl d Hd) as [Ho Ev]. destruct (Hl d' Hd') as [Ho' Ev'].
      rewrite <- (firstn_skipn 16 d), <- (firstn_skipn 16 d'), Es. f_equal.
      assert (E : f_ofN (f := K) (from_be_bytes (firstn 16 d)) = f_ofN (from_be_bytes (firstn 16 d'))).
      { clear - Ev Ev' Hx. unfold challenge_of in *.
        generalize dependent (f_ofN (f := K) (from_be_bytes (firstn 16 d))). generalize dependent (f_ofN (f := K) (from_be_bytes (firstn 16 d'))).
        intros y Hy z Hz. destruct (feqb y f0) eqn:Ey; [congruence|]. destruct (feqb z f0) eqn:Ez; [congruence|].
        assert (Nz : forall u : K, feqb u f0 = false -> u <> f0).
        { intros u Hu E. rewrite E in Hu. assert (H0 : feqb (f0 : K) f0 = true) by now apply feqb_spec. congruence. }
        rewrite <- (finv_finv K y), <- (finv_finv K z) by auto. congruence. }
      apply Hinj in E; auto. destruct (HOm d Ho) as [L1 B1]. destruct (HOm d' Ho') as [L2 B2].
      rewrite <- (firstn_skipn 16 d) in B1. rewrite <- (firstn_skipn 16 d') in B2. apply Forall_app in B1 as [B1 _]. apply Forall_app in B2 as [B2 _].
      apply (be_bytes_inj _ _ 0%N 0%N) in E as [_ E]; auto. rewrite !firstn_length. lia. }
    clear - Hn Hi. induction l as [|d l IH]; cbn [map]; [constructor|]. inversion Hn as [|? ? Hd Hn']; subst. constructor.
    + intros H. apply in_map_iff in H as [d' [E Hd']]. apply Hd. rewrite (Hi d d'); auto; [now left|now right].
    + apply IH; [exact Hn'|]. intros e e' He He'. apply Hi; now right.
  - intros s Hs. apply in_map_iff in Hs as [d [<- Hd]]. destruct (HOm d) as [H1 H2]; [now apply Hl|].
    apply all_bytes_in; [rewrite skipn_length; lia|]. rewrite <- (firstn_skipn 16 d) in H2. now apply Forall_app in H2 as [_ H2].
Qed.
Print Assumptions C101_spread.

Require Verif.PropsSearches.
Example C101_example_spread : forall m, challenges_spread PropsSearches.QF (all_bytes (16 + m)) (256 ^ m).
Proof.
  intros m. apply C101_spread.
  - intros x y _ _ E. change (Qcanon.Q2Qc (QArith_base.inject_Z (Z.of_N x)) = Qcanon.Q2Qc (QArith_base.inject_Z (Z.of_N y))) in E.
    apply Qcanon.Q2Qc_eq_iff in E. unfold QArith_base.Qeq, QArith_base.inject_Z in E. cbn in E. lia.
  - generalize (16 + m). intros n. induction n as [|n IH]; intros d Hd; cbn [all_bytes] in Hd.
    + destruct Hd as [<-|[]]. now split.
    + apply in_flat_map in Hd as [x [Hx Hd]]. apply in_map_iff in Hd as [e [<- He]]. apply in_seq in Hx.
      destruct (IH e He) as [H1 H2]. split; [cbn; now rewrite H1|]. constructor; [lia|exact H2].
Qed.

(** ** Example: the vectors (2, 3) and (5, 7), whose inner product is 31, and the claim 32. The prover sends 14 instead of the
    true cross term 15 and is lucky if the challenge is 1. *)
Definition ex101_digest (n : nat) : bytes := repeat 0%N 15 ++ [N.of_nat n].
Definition ex101_Om : list bytes := map ex101_digest (seq 1 100).
Definition ex101_ka : list ZM := zl [11; 13]%Z.
Definition ex101_kb : list ZM := zl [17; 19]%Z.
Definition ex101_c1 : com3 (mod_carrier ZM) (mod_carrier ZM) (identity_output ZM) := (zq 33, zq 95, [zq 14]).
Definition ex101_c2 : com3 (mod_carrier ZM) (mod_carrier ZM) (identity_output ZM) := (zq 26, zq 119, [zq 14]).
Definition ex101_ask (w : list bytes) : bytes := gipa_hash_input 0 (f0 : ZP) ex101_c1 ex101_c2.
Definition ex101_know (w : list bytes) : (list ZM * list ZM) * (list ZM * list ZM) :=
  ((zl [3; 0]%Z, zl [0; 2]%Z), (zl [0; 5]%Z, zl [7; 0]%Z)).
Definition ex101_out (w : list bytes) : gipa_proof ZM ZM (mod_carrier ZM) (mod_carrier ZM) (identity_output ZM) :=
  mk_gipa_proof (MA := ZM) (MB := ZM) [(ex101_c1, ex101_c2)] (zq 5, zq 12).
Notation ex101_fools := (gipa_fools (ex_L ex_env1) (ex_R ex_env1) (pairing_ip ZPair ex_env1) 5 ex101_ka ex101_kb tt (zq 61) (zq 218) [zq 32]
  (zl [2; 3]%Z) (zl [5; 7]%Z) ex101_ask ex101_know ex101_out).

Example C101_example_fools : ex101_fools [ex101_digest 1].
Proof.
  exists (fun _ => ex101_digest 1). split; [intros q; cbn; lia|].
  split; [intros [|t] Ht; [reflexivity|cbn in Ht; lia]|].
  split; [repeat constructor|]. split; [reflexivity|]. split.
  - intros q Hq. exists 0. split; [cbn; lia|].
    inversion Hq as [prev s steps n Hn Hno|prev s steps n v q' Hn Hv Hq']; subst.
    + destruct n as [|n]; [reflexivity|]. specialize (Hno 0 ltac:(lia)). discriminate.
    + inversion Hq'.
  - unfold collision_found.
    match goal with |- context [match ?x with _ => _ end] =>
      assert (E : x = Some ((zl [5; 5]%Z, zl [5; 5]%Z), (zl [12; 12]%Z, zl [12; 12]%Z))) by reflexivity end.
    rewrite E. intros [[H _]|[H _]]; now apply H.
Qed.
Example C101_example_hypotheses :
  length (zl [2; 3]%Z) = length ex101_ka /\ length (zl [5; 7]%Z) = length ex101_kb /\
  dh_commit (ex_L ex_env1) ex101_ka (zl [2; 3]%Z) = Ok (zq 61) /\ dh_commit (ex_R ex_env1) ex101_kb (zl [5; 7]%Z) = Ok (zq 218) /\
  pairing_ip ZPair ex_env1 (zl [2; 3]%Z) (zl [5; 7]%Z) <> Ok (zq 32) /\
  knows_openings (ex_L ex_env1) (ex_R ex_env1) (MT := ZM) ex101_ka ex101_kb ex101_ask ex101_know /\
  NoDup ex101_Om /\ challenges_spread ZP ex101_Om 1 /\
  prefix_free (@fser ZP) /\ prefix_free (@mser ZP ZM).
Proof.
  split; [reflexivity|]. split; [reflexivity|]. split; [reflexivity|]. split; [reflexivity|]. split; [discriminate|].
  assert (F : prefix_free (@fser ZP)) by exact zp_ser_prefix_free. assert (G : prefix_free (@mser ZP ZM)) by exact zp_ser_prefix_free.
  assert (H1 : forall x y, ex101_digest x = ex101_digest y -> x = y).
  { intros x y H. unfold ex101_digest in H. apply app_inv_head in H. injection H as H. lia. }
  split; [|split; [|split; [|split; [exact F|exact G]]]].
  - intros w n p s Hs E. symmetry in E.
    apply (pay_inj (XA := ZM) (XB := ZM) (MT := ZM) n 0 p f0 s (ex101_c1, ex101_c2) F G G G Hs) in E as [_ ->]; [|split; reflexivity].
    repeat split; reflexivity.
  - apply FinFun.Injective_map_NoDup; [exact H1|apply seq_NoDup].
  - intros x l _ Hl H. destruct l as [|c [|c' l]]; [cbn; lia|cbn; lia|]. exfalso.
    destruct (H c (in_eq _ _)) as [I1 E1]. destruct (H c') as [I2 E2]; [right; now left|].
    inversion Hl as [|? ? Hne _]; subst. apply Hne. left.
    apply in_map_iff in I1 as [n [<- N1]]. apply in_map_iff in I2 as [m [<- N2]]. apply in_seq in N1, N2. f_equal.
    assert (Hv : forall i, 1 <= i < 101 -> challenge_of (K := ZP) (ex101_digest i) = finv (zp_of (Z.of_nat i) : ZP) /\ zp_of (Z.of_nat i) <> f0 :> ZP).
    { intros i Hi. assert (H0 : zp_of (Z.of_nat i) <> f0 :> ZP).
      { intros E. apply (f_equal zp_val) in E. rewrite zp_val_of, Z.mod_small in E by (unfold zp_p; lia). cbn in E. lia. }
      split; [|exact H0]. unfold challenge_of.
      replace (f_ofN (f := ZP) (from_be_bytes (firstn 16 (ex101_digest i)))) with (zp_of (Z.of_nat i) : ZP).
      - destruct (feqb (zp_of (Z.of_nat i) : ZP) f0) eqn:Ez; [apply feqb_spec in Ez; contradiction|reflexivity].
      - cbn. now rewrite ?nat_N_Z. }
    destruct (Hv n ltac:(lia)) as [Vn Zn]. destruct (Hv m ltac:(lia)) as [Vm Zm]. rewrite Vn, Vm in E2.
    apply (f_equal (@finv ZP)) in E2. rewrite !finv_finv in E2 by assumption.
    apply (f_equal zp_val) in E2. rewrite !zp_val_of, !Z.mod_small in E2 by (unfold zp_p; lia). lia.
Qed.

(** Property C94: how often an interactive prover can convince without knowing an opening. *)
Require Import List Arith NArith ZArith Lia Bool Field.
Import ListNotations.
Require Import Verif.Outcome Verif.Algebra Verif.Zp Verif.Rust Verif.InnerProducts Verif.Commitments
  Verif.Gipa Verif.Poly Verif.Tipa Verif.Ssm Verif.Rng Verif.Sipp Verif.Spec Verif.ListFacts
  Verif.RustFacts Verif.InnerProductFacts Verif.CommitFacts Verif.GipaFacts Verif.GipaComplete Verif.GipaTop Verif.GipaAttack
  Verif.SerFacts Verif.KeyFacts Verif.TipaFacts Verif.SsmFacts Verif.SippFacts Verif.RootFacts Verif.SpecialFacts Verif.SsmSpecial
  Verif.Forking Verif.PropsBase Verif.PropsGipa Verif.PropsTipa Verif.PropsSsm Verif.PropsSipp Verif.PropsSpecial
  Verif.PropsTipaForge Verif.PropsSsmSpecial.

(** An interactive prover: [next] gives the round it sends after the challenges so far, [final] its last
    messages.  It convinces the verifier with the challenges [cs] if the verifier accepts its proof for a
    hash function that produces these challenges. *)
Section Convince.
  Context {R : Type} {K : field} {MA MB MT KA KB KT : module K} {OA OB OT : carrier K}.
  Variables (LMC : dhc R MA KA OA) (RMC : dhc R MB KB OB) (IPC : dhc R MT KT OT) (ip : list MA -> list MB -> res MT).
  Definition gipa_convinces ka kb kt (com : com3 OA OB OT) (next : list K -> com3 OA OB OT * com3 OA OB OT)
      (final : list K -> MA * MB) (cs : list K) : Prop :=
    let st := rounds_sent next [] cs in
    exists D fuel, digest16 D /\ round_challenges D fuel f0 st cs /\
      gipa_verify LMC RMC IPC ip D fuel (ka, kb, kt) com (mk_gipa_proof (rev st) (final cs)) = Ok true.
End Convince.

Section ConvinceSsm.
  Context {R : Type} {K : field} {MA MT KA KT : module K} {OA OT : carrier K}.
  Notation rnd := (com3 OA (mod_carrier (fmod K)) OT * com3 OA (mod_carrier (fmod K)) OT)%type.
  Variables (LMC : dhc R MA KA OA) (IPC : dhc R MT KT OT) (ip : list MA -> list (fmod K) -> res MT) (E : penv).
  Definition gssm_convinces ka kt (com : OA * OT) (b : K) (next : list K -> rnd) (final : list K -> MA * fmod K) (cs : list K) : Prop :=
    let st := rounds_sent next [] cs in
    exists D fuel, digest16 D /\ round_challenges D fuel f0 st cs /\
      gssm_verify LMC IPC ip D fuel E (ka, kt) com b (mk_gipa_proof (rev st) (final cs)) = Ok true.
End ConvinceSsm.

(** with the right final keys (for others see C56) and any openings of them *)
Definition tipa_convinces {R} {P : pairing} {MA MB MT KT : module (pK P)} {OA OB OT : carrier (pK P)}
    (LMC : dhc R MA (pG2 P) OA) (RMC : dhc R MB (pG1 P) OB) (IPC : dhc R MT KT OT) (ip : list MA -> list MB -> res MT)
    (v : vsrs P) (ka : list (pG2 P)) (kb : list (pG1 P)) kt (com : com3 OA OB OT) (r : pK P)
    (next : list (pK P) -> com3 OA OB OT * com3 OA OB OT) (final : list (pK P) -> MA * MB) (cs : list (pK P)) : Prop :=
  let st := rounds_sent next [] cs in
  exists D fuel openings, digest16 D /\ round_challenges D fuel f0 st cs /\ length ka = 2 ^ length st /\
    tipa_verify_with_srs_shift LMC RMC IPC ip D fuel v kt com
      (mk_tipa_proof (mk_gipa_proof (rev st) (final cs))
         (folded_key (shift_vec (finv r) ka) (map finv cs), folded_key kb cs) openings) r = Ok true.
Definition tssm_convinces {R} {P : pairing} {MA MT KT : module (pK P)} {OA OT : carrier (pK P)}
    (LMC : dhc R MA (pG2 P) OA) (IPC : dhc R MT KT OT) (ip : list MA -> list (fmod (pK P)) -> res MT) (E : penv)
    (v : vsrs P) (ka : list (pG2 P)) kt (com : OA * OT) (b : pK P)
    (next : list (pK P) -> com3 OA (mod_carrier (fmod (pK P))) OT * com3 OA (mod_carrier (fmod (pK P))) OT)
    (final : list (pK P) -> MA * fmod (pK P)) (cs : list (pK P)) : Prop :=
  let st := rounds_sent next [] cs in
  exists D fuel opening, digest16 D /\ round_challenges D fuel f0 st cs /\ length ka = 2 ^ length st /\
    tssm_verify LMC IPC ip D fuel E v kt com b
      (mk_tssm_proof (mk_gipa_proof (rev st) (final cs)) (folded_key ka (map finv cs)) opening) = Ok true.

(** [L] lists more than 3k N^(k-1) of the N^k sequences of k challenges out of [Ch] *)
Definition often {C} (Ch : list C) (k : nat) (L : list (list C)) (convinces : list C -> Prop) : Prop :=
  NoDup Ch /\ NoDup L /\ (forall cs, In cs L -> length cs = k /\ incl cs Ch /\ convinces cs) /\
  3 * k * length Ch ^ (k - 1) < length L.

(** the extractors: rewind the prover until there is a tree of transcripts, then extract *)
Fixpoint same {K : field} (l l' : list K) : bool :=
  match l, l' with [], [] => true | x :: l, y :: l' => feqb x y && same l l' | _, _ => false end.
Definition in_list {K : field} (L : list (list K)) (cs : list K) : bool := existsb (same cs) L.
Definition rewind {K : field} {T A B} (next : list K -> T) (final : list K -> A * B) (Ch : list K) k (L : list (list K))
  : option (tree T K A B) := find_tree next final (in_list L) Ch k [].

Lemma same_spec {K : field} (l : list K) : forall l', same l l' = true <-> l = l'.
Proof.
  induction l as [|x l IH]; intros [|y l']; cbn [same]; try (split; congruence).
  rewrite andb_true_iff, feqb_spec, IH. split; [intros [-> ->]; reflexivity|intros E; injection E; auto].
Qed.
Lemma in_list_spec {K : field} (L : list (list K)) cs : in_list L cs = true <-> In cs L.
Proof.
  unfold in_list. rewrite existsb_exists. split.
  - intros [l [H1 H2]]. apply same_spec in H2 as ->. exact H1.
  - intros H. exists cs. split; [exact H|now apply same_spec].
Qed.

Lemma rewind_ok {K : field} {T A B} (next : list K -> T) (final : list K -> A * B) (Ch : list K) k L (Q : list K -> Prop) :
  often Ch k L Q ->
  exists t, rewind next final Ch k L = Some t /\ distinct_challenges t /\
    forall st cs base, In (st, cs, base) (paths t) -> st = rounds_sent next [] cs /\ base = final cs /\ Q cs.
Proof.
  intros [Hc [Hl [HL Hn]]].
  destruct (find_tree_enough next final (in_list L) Ch k L Hl) as [t Ht]; [|exact Hn|].
  { intros cs H. destruct (HL cs H) as [H1 [H2 _]]. split; [exact H1|]. split; [exact H2|now apply in_list_spec]. }
  exists t. split; [exact Ht|]. split; [eapply find_tree_distinct; eauto|].
  intros st cs base Hin. destruct (find_tree_paths _ _ _ _ _ _ _ Ht _ _ _ Hin) as [_ [_ [H3 [H4 H5]]]].
  split; [exact H4|]. split; [exact H5|]. apply (HL cs). now apply in_list_spec.
Qed.

Section C94.
  Context {R : Type}.

  Theorem C94_gipa_knowledge {K : field} {MA MB MT KA KB KT XA XB : module K}
      (fA : KA -> MA -> XA) (fB : KB -> MB -> XB) (th : MA -> MB -> MT)
      (LMC : dhc R MA KA (mod_carrier XA)) (RMC : dhc R MB KB (mod_carrier XB)) (ip : list MA -> list MB -> res MT)
      (LA : lin_commit LMC mid fA) (LB : lin_commit RMC mid fB) (LI : lin_ip ip th) ka kb kt ca cb ct next final Ch k L :
    often Ch k L (gipa_convinces LMC RMC (identity MT) ip ka kb kt (ca, cb, ct) next final) ->
    match option_map extract (rewind next final Ch k L) with
    | Some (Witness a b) => length a = length ka /\ length b = length kb /\
        dh_commit LMC ka a = Ok ca /\ dh_commit RMC kb b = Ok cb /\ ip a b = Ok (at_ ct 0)
    | Some (KernelA w) => collides LMC ka w (zeros ka)
    | Some (KernelB w) => collides RMC kb w (zeros kb)
    | None => False
    end.
  Proof.
    intros Ho. destruct (rewind_ok next final Ch k L _ Ho) as [t [-> [Hd Hp]]]. cbn [option_map].
    apply (C18_special_sound_identity fA fB th LMC RMC ip LA LB LI ka kb kt ca cb ct t); [|exact Hd].
    intros st cs base Hin. destruct (Hp st cs base Hin) as [-> [-> H]]. exact H.
  Qed.

  Theorem C94_gssm_knowledge {K : field} {MA MT KA XA : module K} (fA : KA -> MA -> XA) (th : MA -> fmod K -> MT)
      (LMC : dhc R MA KA (mod_carrier XA)) (ip : list MA -> list (fmod K) -> res MT) (LA : lin_commit LMC mid fA) (LI : lin_ip ip th)
      E ka kt ca ct b next final Ch k L :
    often Ch k L (gssm_convinces LMC (identity MT) ip E ka kt (ca, ct) b next final) ->
    match option_map extract1 (rewind next final Ch k L) with
    | Some (inl a) => length a = length ka /\ dh_commit LMC ka a = Ok ca /\ ip a (powers (length ka) b) = Ok (at_ ct 0)
    | Some (inr w) => collides LMC ka w (zeros ka)
    | None => False
    end.
  Proof.
    intros Ho. destruct (rewind_ok next final Ch k L _ Ho) as [t [-> [Hd Hp]]]. cbn [option_map].
    apply (C74_gssm_special_sound fA th LMC ip LA LI E ka kt ca ct b t); [|exact Hd].
    intros st cs base Hin. destruct (Hp st cs base Hin) as [-> [-> H]]. exact H.
  Qed.

  Theorem C94_tipa_knowledge {P : pairing} {MA MB MT XA XB : module (pK P)}
      (fA : pG2 P -> MA -> XA) (fB : pG1 P -> MB -> XB) (th : MA -> MB -> MT)
      (LMC : dhc R MA (pG2 P) (mod_carrier XA)) (RMC : dhc R MB (pG1 P) (mod_carrier XB)) (ip : list MA -> list MB -> res MT)
      (LA : lin_commit LMC mid fA) (LB : lin_commit RMC mid fB) (LI : lin_ip ip th)
      (rand : sampler R (pK P)) rng n s kt0 rng' ka kb v kt ca cb ct r next final Ch k L :
    tipa_setup (identity MT) rand rng n = Ok (s, kt0, rng') -> get_commitment_keys s = (ka, kb) -> get_verifier_key s = Ok v ->
    often Ch k L (tipa_convinces LMC RMC (identity MT) ip v ka kb kt (ca, cb, ct) r next final) ->
    let ka' := shift_vec (finv r) ka in
    match option_map extract (rewind next final Ch k L) with
    | Some (Witness a b) => length a = length ka' /\ length b = length kb /\
        dh_commit LMC ka' a = Ok ca /\ dh_commit RMC kb b = Ok cb /\ ip a b = Ok (at_ ct 0)
    | Some (KernelA w) => collides LMC ka' w (zeros ka')
    | Some (KernelB w) => collides RMC kb w (zeros kb)
    | None => False
    end.
  Proof.
    intros Hs Hk Hv Ho ka'. destruct (rewind_ok next final Ch k L _ Ho) as [t [-> [Hd Hp]]]. cbn [option_map].
    apply (C69_special_sound_partial fA fB th LMC RMC ip LA LB LI rand rng n s kt0 rng' ka kb v kt ca cb ct r t Hs Hk Hv); [|exact Hd].
    intros st cs base Hin. destruct (Hp st cs base Hin) as [-> [-> H]]. destruct H as [D [fuel [o [H1 [H2 [H3 H4]]]]]].
    eexists D, fuel, _. split; [exact H1|]. split; [exact H2|]. split; [|split; [exact H3|split; [|exact H4]]]; reflexivity.
  Qed.

  Theorem C94_tssm_knowledge {P : pairing} {MA MT XA : module (pK P)} (fA : pG2 P -> MA -> XA) (th : MA -> fmod (pK P) -> MT)
      (LMC : dhc R MA (pG2 P) (mod_carrier XA)) (ip : list MA -> list (fmod (pK P)) -> res MT) (LA : lin_commit LMC mid fA) (LI : lin_ip ip th)
      E (rand : sampler R (pK P)) rng n s kt0 rng' ka kb v kt ca ct b next final Ch k L :
    tipa_setup (identity MT) rand rng n = Ok (s, kt0, rng') -> get_commitment_keys s = (ka, kb) -> get_verifier_key s = Ok v ->
    often Ch k L (tssm_convinces LMC (identity MT) ip E v ka kt (ca, ct) b next final) ->
    match option_map extract1 (rewind next final Ch k L) with
    | Some (inl a) => length a = length ka /\ dh_commit LMC ka a = Ok ca /\ ip a (powers (length ka) b) = Ok (at_ ct 0)
    | Some (inr w) => collides LMC ka w (zeros ka)
    | None => False
    end.
  Proof.
    intros Hs Hk Hv Ho. destruct (rewind_ok next final Ch k L _ Ho) as [t [-> [Hd Hp]]]. cbn [option_map].
    apply (C74_tssm_special_sound fA th LMC ip LA LI E rand rng n s kt0 rng' ka kb v kt ca ct b t Hs Hk Hv); [|exact Hd].
    intros st cs base Hin. destruct (Hp st cs base Hin) as [-> [-> H]]. destruct H as [D [fuel [o [H1 [H2 [H3 H4]]]]]].
    eexists D, fuel, _. split; [exact H1|]. split; [exact H2|]. split; [|split; [exact H3|split; [|exact H4]]]; reflexivity.
  Qed.
End C94.
Print Assumptions C94_gipa_knowledge.
Print Assumptions C94_gssm_knowledge.
Print Assumptions C94_tipa_knowledge.
Print Assumptions C94_tssm_knowledge.

(** ** SIPP: no assumption, the value is wrong *)
Section C94Sipp.
  Variable P : pairing.
  Notation K := (pK P).
  Notation G1 := (pG1 P).
  Notation G2 := (pG2 P).
  Notation GT := (pGT P).
  Add Field KfC94 : (f_theory (pK P)).
  Variable E : penv.
  Implicit Types (a : list G1) (b : list G2) (v : GT) (r cs xs : list K).

  (** SIPP::verify accepts the elements of the prover for a hash function (and generator) which produce the challenges cs *)
  Definition sipp_convinces a b r v (next : list K -> GT * GT) cs : Prop :=
    let zs := rounds_sent next [] cs in
    exists S D, challenges_of P S D (sipp_seed P a b r v) zs = cs /\ sipp_verify P E S D a b r v zs = Ok true.

  Lemma rounds_sent_length {T C} (next : list C -> T) l : forall pre, length (rounds_sent next pre l) = length l.
  Proof using. induction l as [|c l IH]; intros pre; [reflexivity|]. cbn [rounds_sent length]. now rewrite IH. Qed.
  Lemma rounds_sent_app {T C} (next : list C -> T) l l' : forall pre,
    rounds_sent next pre (l ++ l') = rounds_sent next pre l ++ rounds_sent next (pre ++ l) l'.
  Proof using.
    induction l as [|c l IH]; intros pre; cbn [app rounds_sent]; [now rewrite app_nil_r|].
    rewrite IH, <- app_assoc. reflexivity.
  Qed.
  Lemma split_nth {C} (d : C) l : forall i, i < length l -> l = firstn i l ++ nth i l d :: skipn (Datatypes.S i) l.
  Proof using. induction l as [|c l IH]; intros [|i] Hi; cbn in *; try lia; auto. f_equal. apply IH. lia. Qed.
  Lemma sipp_bad_dec st z (x : K) : sipp_bad (P := P) st z x \/ ~ sipp_bad st z x.
  Proof using.
    unfold sipp_bad. destruct (f_eq_dec K x f0) as [->|Hx]; [now left; left|].
    destruct (sipp_true_dec st) as [H|H]; [right; intuition|].
    destruct (sipp_true_dec (sipp_round st z x)) as [H'|H']; [left; auto|right; intuition].
  Qed.

  (** the next challenge is bad after the challenges [pre] *)
  Definition sipp_bad_after a b r v (next : list K -> GT * GT) (pre : list K) (x : K) : Prop :=
    sipp_bad (sipp_rounds (scaled_by P r a, b, v) (rounds_sent next [] pre) pre) (next pre) x.

  Lemma sipp_wrong_bad a b r v next cs : u64_bound (length a) ->
    sipp_convinces a b r v next cs -> v <> sipp_value P a b r ->
    exists pre c post, cs = pre ++ c :: post /\ sipp_bad_after a b r v next pre c.
  Proof using.
    intros Hu [S [D [Hc H]]] Hv. set (zs := rounds_sent next [] cs) in *.
    destruct (C46_sound (E := E) (S := S) (D := D) a b r v zs Hu H Hv) as [i [Hi Hbad]].
    assert (Hl : length zs = length cs) by apply rounds_sent_length.
    assert (Hcs : cs = firstn i cs ++ nth i cs f0 :: skipn (Datatypes.S i) cs).
    { apply split_nth. lia. }
    exists (firstn i cs), (nth i cs f0), (skipn (Datatypes.S i) cs). split; [exact Hcs|]. unfold sipp_bad_after.
    assert (Hz : zs = rounds_sent next [] (firstn i cs) ++ next (firstn i cs) :: rounds_sent next (firstn i cs ++ [nth i cs f0]) (skipn (Datatypes.S i) cs)).
    { unfold zs. rewrite Hcs at 1. rewrite rounds_sent_app. reflexivity. }
    assert (Hfl : length (rounds_sent next [] (firstn i cs)) = i) by (rewrite rounds_sent_length, firstn_length; lia).
    assert (E1 : firstn i zs = rounds_sent next [] (firstn i cs)).
    { rewrite Hz, firstn_app, Hfl, Nat.sub_diag, firstn_O, app_nil_r. rewrite <- Hfl at 1. apply firstn_all. }
    assert (E2 : nth i zs (m0, m0) = next (firstn i cs)).
    { rewrite Hz, app_nth2, Hfl, Nat.sub_diag by lia. reflexivity. }
    unfold statement_after in Hbad. rewrite E2 in Hbad.
    assert (E3 : challenges_of P S D (sipp_seed P a b r v) (firstn i zs) = firstn i cs).
    { rewrite <- Hc. rewrite <- !challenges_spec. apply challenges_firstn. }
    rewrite E3, E1 in Hbad.
    replace (challenge_after P S D (sipp_seed P a b r v) (firstn (Datatypes.S i) zs)) with (nth i cs f0) in Hbad; [exact Hbad|].
    rewrite <- Hc. exact (at_map_range (M := fmod K) (fun j => challenge_after P S D (sipp_seed P a b r v) (firstn (Datatypes.S j) zs))
               (length zs) i ltac:(lia)).
  Qed.

  Lemma sipp_bad_after_few a b r v next k pre (l : list K) : length a = 2 ^ k -> length b = 2 ^ k ->
    length pre < k -> NoDup l -> (forall x, In x l -> sipp_bad_after a b r v next pre x) -> length l <= 3.
  Proof using.
    intros Ha Hb Hp Hn Hbad.
    destruct (sipp_rounds_length (rounds_sent next [] pre) pre k (scaled_by P r a, b, v)) as [H1 H2];
      try (cbn [fst snd]; rewrite ?rounds_sent_length, ?scaled_by_length; auto; lia).
    rewrite rounds_sent_length in H1, H2. unfold sipp_bad_after in Hbad.
    destruct (sipp_rounds (scaled_by P r a, b, v) (rounds_sent next [] pre) pre) as [[a' b'] v']. cbn [fst snd] in *.
    apply (sipp_bad_bound a' b' v' (next pre) l); auto; [|congruence].
    exists (2 ^ (k - length pre - 1)). rewrite H1. replace (k - length pre) with (Datatypes.S (k - length pre - 1)) at 1 by lia.
    cbn [Nat.pow]. lia.
  Qed.

  (** of the N^k sequences of challenges at most 3k N^(k-1) lead to the acceptance of a wrong value *)
  Theorem C94_sipp_sound a b r v next Ch k L : u64_bound (length a) -> length a = 2 ^ k -> v <> sipp_value P a b r ->
    NoDup Ch -> NoDup L -> (forall cs, In cs L -> length cs = k /\ incl cs Ch /\ sipp_convinces a b r v next cs) ->
    length L <= 3 * k * length Ch ^ (k - 1).
  Proof using.
    intros Hu Ha Hv Hc Hn HL. destruct L as [|cs0 L0]; [apply Nat.le_0_l|]. set (L := cs0 :: L0) in *.
    assert (Hb : length b = 2 ^ k).
    { destruct (HL cs0 (in_eq _ _)) as [_ [_ [S [D [_ H]]]]].
      destruct (sipp_verify_inv E S D a b r v (rounds_sent next [] cs0) true) as (k' & _ & Ha' & Hb' & _); [|exact H|congruence].
      rewrite Ha, Nat.log2_pow2 by lia. rewrite Ha in Hu. now apply u64_log. }
    apply (few_bad (f_eq_dec K) Ch Hc 3 k (sipp_bad_after a b r v next)).
    - intros pre c. apply sipp_bad_dec.
    - intros pre l. now apply sipp_bad_after_few.
    - exact Hn.
    - intros cs Hcs. destruct (HL cs Hcs) as [H1 [H2 H3]]. split; [exact H1|]. split; [exact H2|]. now apply sipp_wrong_bad.
  Qed.
  (** without the challenge 0 it is 2k N^(k-1) *)
  Theorem C94_sipp_sound_nonzero a b r v next Ch k L : u64_bound (length a) -> length a = 2 ^ k -> v <> sipp_value P a b r ->
    NoDup Ch -> ~ In f0 Ch -> NoDup L -> (forall cs, In cs L -> length cs = k /\ incl cs Ch /\ sipp_convinces a b r v next cs) ->
    length L <= 2 * k * length Ch ^ (k - 1).
  Proof using.
    intros Hu Ha Hv Hc H0 Hn HL. destruct L as [|cs0 L0]; [apply Nat.le_0_l|]. set (L := cs0 :: L0) in *.
    assert (Hb : length b = 2 ^ k).
    { destruct (HL cs0 (in_eq _ _)) as [_ [_ [S [D [_ H]]]]].
      destruct (sipp_verify_inv E S D a b r v (rounds_sent next [] cs0) true) as (k' & _ & Ha' & Hb' & _); [|exact H|congruence].
      rewrite Ha, Nat.log2_pow2 by lia. rewrite Ha in Hu. now apply u64_log. }
    apply (few_bad (f_eq_dec K) Ch Hc 2 k (fun pre x => sipp_bad_after a b r v next pre x /\ x <> f0)).
    - intros pre c. destruct (sipp_bad_dec (sipp_rounds (scaled_by P r a, b, v) (rounds_sent next [] pre) pre) (next pre) c); unfold sipp_bad_after; [|intuition].
      destruct (f_eq_dec K c f0); intuition.
    - intros pre l Hp Hl Hbad. enough (length (f0 :: l) <= 3) by (cbn in *; lia).
      apply (sipp_bad_after_few a b r v next k pre (f0 :: l)); auto.
      + constructor; [|exact Hl]. intros Hi. now destruct (Hbad _ Hi).
      + intros x [<-|Hx]; [now left|]. now apply Hbad.
    - exact Hn.
    - intros cs Hcs. destruct (HL cs Hcs) as [H1 [H2 H3]]. split; [exact H1|]. split; [exact H2|].
      apply sipp_wrong_bad in H3 as [pre [c [post [-> Hb']]]]; auto. exists pre, c, post. split; [reflexivity|]. split; [exact Hb'|].
      intros ->. apply H0, H2, in_or_app. right. now left.
  Qed.

  (** ** a prover that gambles on two challenges *)
  Variables x1 x2 : K.
  (** the round elements: the honest ones, corrected for the case that the challenge is x1 or x2 *)
  Definition gamble (st : list G1 * list G2 * GT) : GT * GT :=
    let '(a, b, v) := st in
    let d := finv (x1 +f x2) *m (pairing_sum P a b -m v) in
    (cross_l a b +m d, cross_r a b +m (x1 *f x2) *m d).
  Definition gamble_state st (pre : list K) := fold_left (fun st x => sipp_round (P := P) st (gamble st) x) pre st.
  Definition gambler a b r v (pre : list K) : GT * GT := gamble (gamble_state (scaled_by P r a, b, v) pre).

  Lemma gamble_rounds (st : list G1 * list G2 * GT) cs : forall pre, 
    sipp_rounds (gamble_state st pre) (rounds_sent (fun p => gamble (gamble_state st p)) pre cs) cs = gamble_state st (pre ++ cs).
  Proof using.
    induction cs as [|c cs IH]; intros pre; cbn [rounds_sent sipp_rounds]; [now rewrite app_nil_r|].
    replace (pre ++ c :: cs) with ((pre ++ [c]) ++ cs) by now rewrite <- app_assoc.
    rewrite <- IH. f_equal. unfold gamble_state. now rewrite fold_left_app.
  Qed.

  (** what is missing is multiplied by (x1 - x)(x2 - x) / -x(x1 + x2) *)
  Lemma gamble_step h a b v (x : K) : length a = h + h -> length b = h + h -> x <> f0 -> x1 +f x2 <> f0 ->
    let '(a', b', v') := sipp_round (P := P) (a, b, v) (gamble (a, b, v)) x in
    length a' = h /\ length b' = h /\
    v' -m pairing_sum P a' b' =
      (f1 -f (x +f finv x *f (x1 *f x2)) *f finv (x1 +f x2)) *m (v -m pairing_sum P a b).
  Proof using.
    intros Ha Hb Hx H12. cbn [sipp_round gamble fst snd]. rewrite inv0_nz by exact Hx.
    destruct (split_list h a ltac:(lia)) as (a1 & a2 & -> & Ha1 & Ha2 & _).
    destruct (split_list h b ltac:(lia)) as (b1 & b2 & -> & Hb1 & Hb2 & _).
    rewrite Ha in Ha2. rewrite Hb in Hb2. replace (h + h - h) with h in * by lia.
    rewrite !half_fold_app by congruence. rewrite cross_l_app, cross_r_app by congruence.
    split; [rewrite vfold_length; congruence|]. split; [rewrite vfold_length; congruence|].
    rewrite <- !dot_pairing_sum by (rewrite ?vfold_length, ?app_length; congruence).
    rewrite (dot_fold (pr_e P) (pr_e_bilinear P)) by (try congruence; field; auto).
    module_norm; field; auto.
  Qed.

  Lemma gamble_true a b v k cs : x1 <> f0 -> x2 <> f0 -> x1 +f x2 <> f0 -> length a = 2 ^ k -> length b = 2 ^ k -> length cs = k ->
    ~ In f0 cs -> (v = pairing_sum P a b \/ In x1 cs \/ In x2 cs) -> sipp_true (gamble_state (a, b, v) cs).
  Proof using.
    intros N1 N2 N12. revert k a b v. induction cs as [|c cs IH]; intros k a b v Ha Hb Hk H0 H.
    - destruct H as [->|[[]|[]]]. reflexivity.
    - destruct k as [|k]; [discriminate|]. injection Hk as Hk. cbn [Nat.pow] in Ha, Hb.
      assert (Hc : c <> f0) by (intros ->; apply H0, in_eq).
      pose proof (gamble_step (2 ^ k) a b v c ltac:(lia) ltac:(lia) Hc N12) as Hs.
      unfold gamble_state. cbn [fold_left].
      destruct (sipp_round (a, b, v) (gamble (a, b, v)) c) as [[a' b'] v']. destruct Hs as [La [Lb Hd]].
      apply (IH k a' b' v' La Lb Hk); [intros Hi; apply H0; now right|].
      assert (Hz : forall y : GT, y = m0 -> v' -m pairing_sum P a' b' = y -> v' = pairing_sum P a' b') by (intros y -> Hy; now apply msub_eq0).
      destruct H as [->|[[<-|H]|[<-|H]]].
      + left. refine (Hz _ _ Hd). module_norm; ring.
      + left. refine (Hz _ _ Hd). replace (f1 -f _) with (f0 : K) by (field; auto). apply mscale_0_l.
      + right. now left.
      + left. refine (Hz _ _ Hd). replace (f1 -f _) with (f0 : K) by (field; auto). apply mscale_0_l.
      + right. now right.
  Qed.

  Lemma sipp_true_fold k : forall a b v zs xs, length a = 2 ^ k -> length b = 2 ^ k -> length zs = k -> length xs = k ->
    sipp_true (sipp_rounds (P := P) (a, b, v) zs xs) -> fold_eq a b v zs xs.
  Proof using.
    induction k as [|k IH]; intros a b v zs xs Ha Hb Hz Hx Ht.
    - destruct zs, xs; try discriminate. cbn [Nat.pow] in *.
      destruct a as [|x [|? ?]], b as [|y [|? ?]]; try discriminate.
      apply fold_eq_nil. cbn [sipp_rounds sipp_true] in Ht. now rewrite dot_pairing_sum.
    - destruct zs as [|z zs], xs as [|x xs]; try discriminate. injection Hz as Hz. injection Hx as Hx.
      assert (H2 : 2 ^ Datatypes.S k = 2 ^ k + 2 ^ k) by (cbn [Nat.pow]; lia).
      destruct (split_list (2 ^ k) a ltac:(lia)) as (a1 & a2 & -> & Ha1 & Ha2 & _).
      destruct (split_list (2 ^ k) b ltac:(lia)) as (b1 & b2 & -> & Hb1 & Hb2 & _).
      rewrite Ha, H2 in Ha2. rewrite Hb, H2 in Hb2. replace (2 ^ k + 2 ^ k - 2 ^ k) with (2 ^ k) in * by lia.
      cbn [sipp_rounds sipp_round] in Ht. rewrite !half_fold_app in Ht by (rewrite ?Ha1, ?Ha2, ?Hb1, ?Hb2; reflexivity).
      apply fold_eq_cons; try congruence. rewrite inv0_batch.
      apply IH; auto; rewrite vfold_length; congruence.
  Qed.

  (** For every value, right or wrong, the gambler convinces whenever one of the challenges is x1 or x2
      (and none is 0): that is N^k - (N-2)^k of the sequences over N challenges. *)
  Theorem C94_sipp_gamble a b r v k S D cs : x1 <> f0 -> x2 <> f0 -> x1 +f x2 <> f0 ->
    1 <= k -> u64_bound (length a) -> length a = 2 ^ k -> length b = 2 ^ k -> length a <= length r -> length cs = k ->
    ~ In f0 cs -> In x1 cs \/ In x2 cs ->
    challenges_of P S D (sipp_seed P a b r v) (rounds_sent (gambler a b r v) [] cs) = cs ->
    sipp_verify P E S D a b r v (rounds_sent (gambler a b r v) [] cs) = Ok true.
  Proof using.
    intros N1 N2 N12 Hk Hu Ha Hb Hr Hl H0 Hin Hc.
    rewrite (sipp_verify_eq E S D k a b r v) by (auto; try (rewrite Ha in Hu; now apply u64_log); try (rewrite rounds_sent_length; exact Hl); lia).
    unfold seeded. rewrite challenges_spec, Hc. f_equal. apply meqb_spec. rewrite scaled_by_eq by lia.
    apply (sipp_true_fold k); rewrite ?scaled_by_length, ?rounds_sent_length; auto.
    change (scaled_by P r a, b, v) with (gamble_state (scaled_by P r a, b, v) []) at 1. unfold gambler.
    rewrite (gamble_rounds (scaled_by P r a, b, v) cs []). cbn [app].
    apply (gamble_true _ _ _ k); rewrite ?scaled_by_length; auto.
  Qed.
End C94Sipp.
Print Assumptions C94_sipp_sound.
Print Assumptions C94_sipp_sound_nonzero.
Print Assumptions C94_sipp_gamble.

(** ** Examples *)
(** an honest prover: a = (3, 1), b = (5, 9); it convinces with every challenge, so more often than 3 * 1 * 4^0 of 4^1 times *)
Definition ex_next (_ : list ZP) : excom * excom := ex_round.
Definition ex_final (cs : list ZP) : ZM * ZM :=
  (fadd (f := ZP) (zq 3) (fat cs 0), fadd (f := ZP) (zq 5) (fmul (f := ZP) (finv (fat cs 0)) (zq 9))).
Definition ex_Ch : list ZP := [chal 1; chal 2; chal 3; chal 4].
Definition ex_seqs : list (list ZP) := [[chal 1]; [chal 2]; [chal 3]; [chal 4]].
Example C94_example_often : often ex_Ch 1 ex_seqs
  (gipa_convinces (ex_L ex_env1) (ex_R ex_env1) ex_T (pairing_ip ZPair ex_env1)
     (zl [11; 12]%Z) (zl [21; 22]%Z) tt (mkcom 45 303 24) ex_next ex_final).
Proof.
  split; [|split; [|split]].
  - repeat constructor; cbn [In]; intros Hin; repeat destruct Hin as [Hin|Hin]; try contradiction; vm_compute in Hin; discriminate.
  - repeat constructor; cbn [In]; intros Hin; repeat destruct Hin as [Hin|Hin]; try contradiction; vm_compute in Hin; discriminate.
  - intros cs Hin. cbn [ex_seqs In] in Hin.
    destruct Hin as [<-|[<-|[<-|[<-|[]]]]]; (split; [reflexivity|]; split; [intros x [<-|[]]; unfold ex_Ch; cbn [In]; tauto|]);
    [accepted 1%N|accepted 2%N|accepted 3%N|accepted 4%N].
  - unfold ex_Ch, ex_seqs. cbn [length Nat.sub Nat.pow]. lia.
Qed.
Example C94_example_extracted :
  match option_map extract (rewind ex_next ex_final ex_Ch 1 ex_seqs) with
  | Some (Witness [a1; a2] [b1; b2]) => zp_eqb a1 (zq 3) && zp_eqb a2 (zq 1) && zp_eqb b1 (zq 5) && zp_eqb b2 (zq 9)
  | _ => false
  end = true.
Proof. vm_compute. reflexivity. Qed.
(** with one challenge fewer nothing can be extracted *)
Example C94_example_too_few :
  match rewind ex_next ex_final ex_Ch 1 [[chal 1]; [chal 2]; [chal 3]] with Some _ => false | None => true end = true.
Proof. vm_compute. reflexivity. Qed.

(** ** the gambler claims 39 instead of 38 and bets on the challenges 5 and 7: it wins with both (the bound 2 * 1 * N^0
    is attained) and loses with 3 *)
Definition ex_bet : list (ZM * ZM) :=
  rounds_sent (gambler ZPair (zq 5) (zq 7) (zl [2; 3]%Z) (zl [7; 8]%Z) (zl [1; 1]%Z) (zq 39)) [] [zq 5].
Definition ex_play (c : N) : res bool :=
  sipp_verify ZPair ex_env toy_stream (fun _ => [c]) (zl [2; 3]%Z) (zl [7; 8]%Z) (zl [1; 1]%Z) (zq 39) ex_bet.
Example C94_example_gambler : ex_play 5 = Ok true /\ ex_play 7 = Ok true /\ ex_play 3 = Ok false.
Proof. repeat split; vm_compute; reflexivity. Qed.
Example C94_example_bound_attained : forall c, In c [[zq 5]; [zq 7]] ->
  sipp_convinces ZPair ex_env (zl [2; 3]%Z) (zl [7; 8]%Z) (zl [1; 1]%Z) (zq 39)
    (gambler ZPair (zq 5) (zq 7) (zl [2; 3]%Z) (zl [7; 8]%Z) (zl [1; 1]%Z) (zq 39)) c.
Proof.
  intros c [<-|[<-|[]]]; [exists toy_stream, (fun _ => [5%N])|exists toy_stream, (fun _ => [7%N])]; split; vm_compute; reflexivity.
Qed.
Example C94_example_not_more : zq 39 <> sipp_value ZPair (zl [2; 3]%Z) (zl [7; 8]%Z) (zl [1; 1]%Z) /\
  ~ sipp_convinces ZPair ex_env (zl [2; 3]%Z) (zl [7; 8]%Z) (zl [1; 1]%Z) (zq 39)
    (gambler ZPair (zq 5) (zq 7) (zl [2; 3]%Z) (zl [7; 8]%Z) (zl [1; 1]%Z) (zq 39)) [zq 3].
Proof.
  split; [vm_compute; discriminate|]. intros H.
  assert (Hv : zq 39 <> sipp_value ZPair (zl [2; 3]%Z) (zl [7; 8]%Z) (zl [1; 1]%Z)) by (vm_compute; discriminate).
  assert (Hl : length [[zq 3]; [zq 5]; [zq 7]] <= 2 * 1 * length [zq 3; zq 5; zq 7] ^ (1 - 1)); [|cbn [length Nat.sub Nat.pow] in Hl; lia].
  apply (C94_sipp_sound_nonzero ZPair ex_env (zl [2; 3]%Z) (zl [7; 8]%Z) (zl [1; 1]%Z) (zq 39)
    (gambler ZPair (zq 5) (zq 7) (zl [2; 3]%Z) (zl [7; 8]%Z) (zl [1; 1]%Z) (zq 39))); auto.
  - unfold u64_bound, zl. rewrite map_length. cbn [length]. lia.
  - repeat constructor; cbn [In]; intros Hin; repeat destruct Hin as [Hin|Hin]; try contradiction; vm_compute in Hin; discriminate.
  - cbn [In]; intros Hin; repeat destruct Hin as [Hin|Hin]; try contradiction; vm_compute in Hin; discriminate.
  - repeat constructor; cbn [In]; intros Hin; repeat destruct Hin as [Hin|Hin]; try contradiction; vm_compute in Hin; discriminate.
  - intros cs [<-|Hc]; [split; [reflexivity|]; split; [intros x [<-|[]]; unfold ex_Ch; cbn [In]; tauto|exact H]|].
    split; [destruct Hc as [<-|[<-|[]]]; reflexivity|]. split; [destruct Hc as [<-|[<-|[]]]; intros x [<-|[]]; unfold ex_Ch; cbn [In]; tauto|].
    now apply C94_example_bound_attained.
Qed.

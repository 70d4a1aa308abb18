(** Property C96: how often a prover of aggregates or of transparent openings can convince without knowing valid proofs or a polynomial. *)
Require Import List Arith NArith ZArith Lia Bool Field.
Import ListNotations.
Require Import Verif.Outcome Verif.Algebra Verif.Zp Verif.Rust Verif.InnerProducts Verif.Commitments
  Verif.Gipa Verif.Poly Verif.Tipa Verif.Ssm Verif.Floats Verif.PolyCommit Verif.Transparent Verif.Groth16 Verif.Spec Verif.ListFacts
  Verif.RustFacts Verif.InnerProductFacts Verif.CommitFacts Verif.GipaFacts Verif.GipaComplete Verif.GipaTop Verif.GipaAttack
  Verif.SerFacts Verif.PolyFacts Verif.KeyFacts Verif.TipaFacts Verif.SsmFacts Verif.RootFacts Verif.Groth16Facts Verif.PcFacts Verif.UpcFacts Verif.TransparentFacts
  Verif.VerifyFacts Verif.SpecialFacts Verif.SsmSpecial Verif.PcSpecial Verif.Forking Verif.ForkingTwo
  Verif.PropsBase Verif.PropsGipa Verif.PropsTipa Verif.PropsSsm Verif.PropsVerify Verif.PropsSpecial Verif.PropsGroth Verif.PropsPcVerify Verif.PropsGrothVerify
  Verif.PropsPoly Verif.PropsTipaForge Verif.PropsSsmSpecial Verif.PropsPcSpecial Verif.PropsForking.

(** [L] lists more than m N^(k1+k2) + 3(k1+k2) Q N^(k1+k2-1) of the Q N^(k1+k2) possible challenges: one of the Q first
    challenges, then k1 and k2 of the N round challenges for the two arguments. *)
Definition often_both {Q C} (Qs : list Q) (Ch : list C) (k1 k2 m : nat) (L : list (Q * (list C * list C)))
    (convinces : Q -> list C -> list C -> Prop) : Prop :=
  NoDup Qs /\ NoDup Ch /\ NoDup L /\
  (forall q cs1 cs2, In (q, (cs1, cs2)) L ->
     In q Qs /\ length cs1 = k1 /\ incl cs1 Ch /\ length cs2 = k2 /\ incl cs2 Ch /\ convinces q cs1 cs2) /\
  m * length Ch ^ (k1 + k2) + length Qs * (3 * (k1 + k2) * length Ch ^ (k1 + k2 - 1)) < length L.

Definition in_both {K : field} (L : list (K * (list K * list K))) (q : K) (cs1 cs2 : list K) : bool :=
  existsb (fun e => feqb q (fst e) && same cs1 (fst (snd e)) && same cs2 (snd (snd e))) L.
Lemma in_both_spec {K : field} (L : list (K * (list K * list K))) q cs1 cs2 : in_both L q cs1 cs2 = true <-> In (q, (cs1, cs2)) L.
Proof.
  unfold in_both. rewrite existsb_exists. split.
  - intros [[q' [a b]] [H1 H2]]. cbn [fst snd] in H2. apply andb_true_iff in H2 as [H2 H4]. apply andb_true_iff in H2 as [H2 H3].
    apply feqb_spec in H2 as ->. apply same_spec in H3 as ->. apply same_spec in H4 as ->. exact H1.
  - intros H. exists (q, (cs1, cs2)). split; [exact H|]. cbn [fst snd]. rewrite !andb_true_iff, feqb_spec. split; [split|]; [reflexivity|now apply same_spec..].
Qed.

(** ** Aggregates *)
(** A prover of aggregates: what it sends for the challenge r, the rounds and last messages of the argument about A and B, then
    those of the argument about C. *)
Record g16_prover (P : pairing) : Type := mk_g16_prover {
  gpr_ip : pK P -> pGT P;
  gpr_agg : pK P -> pG1 P;
  gpr_next_ab : pK P -> list (pK P) ->
    com3 (mod_carrier (pGT P)) (mod_carrier (pGT P)) (identity_output (pGT P)) * com3 (mod_carrier (pGT P)) (mod_carrier (pGT P)) (identity_output (pGT P));
  gpr_final_ab : pK P -> list (pK P) -> pG1 P * pG2 P;
  gpr_next_c : pK P -> list (pK P) -> list (pK P) ->
    com3 (mod_carrier (pGT P)) (mod_carrier (fmod (pK P))) (identity_output (pG1 P)) * com3 (mod_carrier (pGT P)) (mod_carrier (fmod (pK P))) (identity_output (pG1 P));
  gpr_final_c : pK P -> list (pK P) -> list (pK P) -> pG1 P * fmod (pK P) }.
Arguments mk_g16_prover {P}.
Arguments gpr_ip {P}.
Arguments gpr_agg {P}.
Arguments gpr_next_ab {P}.
Arguments gpr_final_ab {P}.
Arguments gpr_next_c {P}.
Arguments gpr_final_c {P}.

(** It convinces with the challenges r, cs1, cs2 if the verifier accepts its aggregate (with the right final keys, and any
    openings of them) for a hash function that produces these challenges. *)
Definition g16_convinces {R} {P : pairing} (E : penv) (r1 : sampler R (pG1 P)) (r2 : sampler R (pG2 P)) (v : vsrs P)
    (ka : list (pG2 P)) (kb : list (pG1 P)) (vk : g16_vk P) (inputs : list (list (pK P))) (ca cb cc : pGT P)
    (pr : g16_prover P) (r : pK P) (cs1 cs2 : list (pK P)) : Prop :=
  let st1 := rounds_sent (gpr_next_ab pr r) [] cs1 in
  let st2 := rounds_sent (gpr_next_c pr r cs1) [] cs2 in
  exists D fuel o1 o2, digest16 D /\ drawn D fuel (mser ca ++ mser cb ++ mser cc) r /\
    round_challenges D fuel f0 st1 cs1 /\ round_challenges D fuel f0 st2 cs2 /\
    length ka = 2 ^ length cs1 /\ length ka = 2 ^ length cs2 /\
    g16_verify P E D fuel r1 r2 v vk inputs
      (mk_agg_proof ca cb cc (gpr_ip pr r) (gpr_agg pr r)
         (mk_tipa_proof (mk_gipa_proof (rev st1) (gpr_final_ab pr r cs1))
            (folded_key (shift_vec (finv r) ka) (map finv cs1), folded_key kb cs1) o1)
         (mk_tssm_proof (mk_gipa_proof (rev st2) (gpr_final_c pr r cs1 cs2)) (folded_key ka (map finv cs2)) o2)) = Ok true.

(** the extractor: rewind to both arguments for each r *)
Definition g16_branches {P : pairing} (pr : g16_prover P) (Qs Ch : list (pK P)) (k : nat) (L : list (pK P * (list (pK P) * list (pK P))))
  : list (g16_branch P) :=
  map (fun e => mk_branch (fst e) (gpr_ip pr (fst e)) (gpr_agg pr (fst e)) (fst (snd e)) (snd (snd e)))
    (found (rewind_both (gpr_next_ab pr) (gpr_final_ab pr) (gpr_next_c pr) (gpr_final_c pr) (in_both L) Ch k k) Qs).

Lemma sent_length {T C} (next : list C -> T) cs : forall pre, length (rounds_sent next pre cs) = length cs.
Proof. induction cs as [|c cs IH]; intros pre; cbn [rounds_sent length]; [reflexivity|]. now rewrite IH. Qed.

Section C96.
  Context {R : Type} {P : pairing}.
  Notation K := (pK P).
  Variables (E : penv) (HE : 1 <= threads E) (r1 : sampler R (pG1 P)) (r2 : sampler R (pG2 P)).

  Theorem C96_aggregate_knowledge (rand : sampler R K) (rng : R) n s rng' ka kb v vk inputs ca cb cc pr Qs Ch k L :
    g16_setup P rand rng n = Ok (s, rng') -> get_commitment_keys s = (ka, kb) -> get_verifier_key s = Ok v -> length inputs = n ->
    often_both Qs Ch k k (n - 1) L (g16_convinces E r1 r2 v ka kb vk inputs ca cb cc pr) ->
    match g16_extract (g16_branches pr Qs Ch k L) with
    | Proofs pfs => Forall2 (g16_valid vk) inputs pfs /\
        dh_commit (afgho_g1 P E r2) ka (map pf_a pfs) = Ok ca /\ dh_commit (afgho_g2 P E r1) kb (map pf_b pfs) = Ok cb /\
        dh_commit (afgho_g1 P E r2) ka (map pf_c pfs) = Ok cc
    | CollisionA x y => collides (afgho_g1 P E r2) ka x y
    | CollisionB x y => collides (afgho_g2 P E r1) kb x y
    end.
  Proof using HE.
    intros Hs Hk Hv Hin [HQ [HC [HL [Hi Hl]]]]. apply (C75_aggregate_special_sound E HE r1 r2 rand rng n s rng' ka kb v Hs Hk Hv vk inputs ca cb cc); auto.
    - unfold g16_branches. rewrite map_length.
      pose proof (enough_branches (gpr_next_ab pr) (gpr_final_ab pr) (gpr_next_c pr) (gpr_final_c pr) (in_both L) Ch k k Qs (n - 1) L HL) as H.
      enough (n - 1 < length (found (rewind_both (gpr_next_ab pr) (gpr_final_ab pr) (gpr_next_c pr) (gpr_final_c pr) (in_both L) Ch k k) Qs)) by lia.
      apply H; [|exact Hl]. intros q cs1 cs2 Hq. destruct (Hi _ _ _ Hq) as [G1 [G2 [G3 [G4 [G5 _]]]]].
      repeat (split; [assumption|]). now apply in_both_spec.
    - unfold g16_branches. rewrite map_map. cbn [br_r]. now apply found_nodup.
    - apply Forall_forall. intros br Hbr. unfold g16_branches in Hbr. apply in_map_iff in Hbr as [[r [t1 t2]] [<- Hf]].
      apply found_spec in Hf as [_ Hf]. cbn [fst snd br_ab br_c].
      apply rewind_both_spec in Hf as [D1 [D2 [H1 [cs0 H2]]]]; [|exact HC]. split; [|auto].
      split; cbn [br_ab br_c br_r br_ip br_agg]; intros st cs base Hp.
      + destruct (H1 st cs base Hp) as [-> [-> [cs2 Hok]]]. apply in_both_spec in Hok. destruct (Hi _ _ _ Hok) as [_ [_ [_ [_ [_ Hc]]]]].
        destruct Hc as [D [fuel [o1 [o2 [X1 [X2 [X3 [X4 [X5 [X6 X7]]]]]]]]]].
        eexists D, fuel, _, _. split; [split; [exact X1|split; [exact X2|exact X7]]|]. cbn [tp_gipa tp_final_ck]. rewrite sent_length. auto.
      + destruct (H2 st cs base Hp) as [-> [-> Hok]]. apply in_both_spec in Hok. destruct (Hi _ _ _ Hok) as [_ [_ [_ [_ [_ Hc]]]]].
        destruct Hc as [D [fuel [o1 [o2 [X1 [X2 [X3 [X4 [X5 [X6 X7]]]]]]]]]].
        eexists D, fuel, _, _. split; [split; [exact X1|split; [exact X2|exact X7]]|]. cbn [ts_gipa ts_final_ck]. rewrite sent_length. auto.
  Qed.
End C96.
Print Assumptions C96_aggregate_knowledge.

(** ** Openings of the transparent univariate scheme *)
(** A prover of openings: for the point z the value and commitment it claims, then the two arguments. *)
Record t_prover (P : pairing) : Type := mk_t_prover {
  tpr_value : pK P -> pK P;
  tpr_comm : pK P -> pG1 P;
  tpr_next_outer : pK P -> list (pK P) ->
    com3 (mod_carrier (pGT P)) (mod_carrier (fmod (pK P))) (identity_output (pG1 P)) * com3 (mod_carrier (pGT P)) (mod_carrier (fmod (pK P))) (identity_output (pG1 P));
  tpr_final_outer : pK P -> list (pK P) -> pG1 P * fmod (pK P);
  tpr_next_inner : pK P -> list (pK P) -> list (pK P) ->
    com3 (mod_carrier (pG1 P)) (mod_carrier (fmod (pK P))) (identity_output (fmod (pK P))) * com3 (mod_carrier (pG1 P)) (mod_carrier (fmod (pK P))) (identity_output (fmod (pK P)));
  tpr_final_inner : pK P -> list (pK P) -> list (pK P) -> fmod (pK P) * fmod (pK P) }.
Arguments mk_t_prover {P}.
Arguments tpr_value {P}.
Arguments tpr_comm {P}.
Arguments tpr_next_outer {P}.
Arguments tpr_final_outer {P}.
Arguments tpr_next_inner {P}.
Arguments tpr_final_inner {P}.

Definition t_convinces {R} {P : pairing} (E : penv) (r1 : sampler R (pG1 P)) (r2 : sampler R (pG2 P))
    (ck : list (pG1 P) * list (pG2 P)) (com : pGT P) (pr : t_prover P) (z : pK P) (cs1 cs2 : list (pK P)) : Prop :=
  let st1 := rounds_sent (tpr_next_outer pr z) [] cs1 in
  let st2 := rounds_sent (tpr_next_inner pr z cs1) [] cs2 in
  exists D fuel, digest16 D /\ round_challenges D fuel f0 st1 cs1 /\ round_challenges D fuel f0 st2 cs2 /\
    tupc_verify P E D fuel r1 r2 ck com z (tpr_value pr z)
      (mk_t_opening (mk_gipa_proof (rev st1) (tpr_final_outer pr z cs1)) (tpr_comm pr z) (mk_gipa_proof (rev st2) (tpr_final_inner pr z cs1 cs2))) = Ok true.

(** the extractor: rewind to both arguments for each point; first the branches with different x = z^m *)
Definition t_branches {P : pairing} (pr : t_prover P) (Qs Ch : list (pK P)) (k1 k2 m : nat) (L : list (pK P * (list (pK P) * list (pK P))))
  : list (t_branch P) :=
  map (fun e => mk_t_branch (fpow (fst e) m) (fst e) (tpr_value pr (fst e)) (tpr_comm pr (fst e)) (fst (snd e)) (snd (snd e)))
    (found (rewind_both (tpr_next_outer pr) (tpr_final_outer pr) (tpr_next_inner pr) (tpr_final_inner pr) (in_both L) Ch k1 k2) Qs).
Fixpoint spread {P : pairing} (seen : list (pK P)) (brs : list (t_branch P)) : list (t_branch P) :=
  match brs with
  | [] => []
  | br :: brs => if existsb (feqb (tb_x br)) seen then spread seen brs else br :: spread (tb_x br :: seen) brs
  end.

Section Spread.
  Context {P : pairing}.
  Notation K := (pK P).
  Add Field KfC96 : (f_theory (pK P)).
  Implicit Type brs : list (t_branch P).

  Lemma seen_spec (x : K) seen : existsb (feqb x) seen = true <-> In x seen.
  Proof.
    rewrite existsb_exists. split; [intros [y [H1 H2]]; apply feqb_spec in H2 as ->; exact H1|]. intros H. exists x. split; [exact H|now apply feqb_spec].
  Qed.
  Lemma spread_incl brs : forall seen br, In br (spread seen brs) -> In br brs /\ ~ In (tb_x br) seen.
  Proof.
    induction brs as [|b brs IH]; intros seen br H; cbn [spread] in H; [contradiction|]. destruct (existsb _ seen) eqn:Es.
    - apply IH in H as [H1 H2]. split; [now right|exact H2].
    - destruct H as [<-|H]; [split; [now left|]; intros Hi; apply seen_spec in Hi; congruence|].
      apply IH in H as [H1 H2]. split; [now right|]. intros Hi. apply H2. now right.
  Qed.
  Lemma spread_nodup brs : forall seen, NoDup (map tb_x (spread seen brs)).
  Proof.
    induction brs as [|b brs IH]; intros seen; cbn [spread]; [constructor|]. destruct (existsb _ seen) eqn:Es; [apply IH|]. cbn [map]. constructor; [|apply IH].
    intros H. apply in_map_iff in H as [br [H1 H2]]. apply spread_incl in H2 as [_ H2]. apply H2. rewrite H1. now left.
  Qed.
  Lemma spread_all brs : forall seen br, In br brs -> In (tb_x br) seen \/ In (tb_x br) (map tb_x (spread seen brs)).
  Proof.
    induction brs as [|b brs IH]; intros seen br H; [contradiction|]. cbn [spread]. destruct H as [<-|H].
    - destruct (existsb _ seen) eqn:Es; [left; now apply seen_spec|right; now left].
    - destruct (existsb _ seen) eqn:Es; [now apply IH|]. destruct (IH (tb_x b :: seen) br H) as [[H1|H1]|H1].
      + right. left. exact H1.
      + now left.
      + right. now right.
  Qed.

  (** an m-th power has at most m roots *)
  Lemma power_roots (ys : list K) m x : 0 < m -> NoDup ys -> (forall y, In y ys -> fpow y m = x) -> length ys <= m.
  Proof.
    intros Hm Hn Hr. destruct m as [|m]; [lia|].
    assert (H : length ys <= length ((fopp x : K) :: repeat f0 m ++ [f1 : K]) - 1).
    { apply (roots_bound (M := fmod K)); [exact Hn| |].
      - exists (f1 : K). split; [right; apply in_or_app; right; now left|apply f1_neq_f0].
      - intros y Hy. rewrite mev_ev. cbn [poly_evaluate fold_right]. change (fold_right (fun c acc => c +f y *f acc) f0 (repeat f0 m ++ [f1])) with (poly_evaluate (repeat (f0 : K) m ++ [f1]) y).
        assert (He : poly_evaluate (repeat (f0 : K) m ++ [f1]) y = fpow y m).
        { clear. induction m as [|m IH]; cbn [repeat app poly_evaluate fold_right fpow]; [ring|].
          change (fold_right (fun c acc => c +f y *f acc) f0 (repeat f0 m ++ [f1])) with (poly_evaluate (repeat (f0 : K) m ++ [f1]) y). rewrite IH. ring. }
        rewrite He. pose proof (Hr y Hy) as Hx. cbn [fpow] in Hx. rewrite Hx. change (fopp x +f x = f0). ring. }
    cbn [length] in H. rewrite app_length, repeat_length in H. cbn [length] in H. lia.
  Qed.

  Lemma classes_bound (ys : list K) (xs : list K) m : 0 < m -> NoDup ys -> (forall y, In y ys -> In (fpow y m) xs) -> length ys <= length xs * m.
  Proof.
    intros Hm. revert ys. induction xs as [|x xs IH]; intros ys Hn Hi.
    - destruct ys as [|y ys]; [cbn; lia|]. destruct (Hi y (in_eq _ _)).
    - assert (Hp : length ys = length (filter (fun y => feqb (fpow y m) x) ys) + length (filter (fun y => negb (feqb (fpow y m) x)) ys)).
      { clear. induction ys as [|y ys IH]; [reflexivity|]. cbn [filter length]. destruct (feqb (fpow y m) x); cbn [negb length]; lia. }
      assert (H1 : length (filter (fun y => feqb (fpow y m) x) ys) <= m).
      { apply (power_roots _ m x); [exact Hm|now apply NoDup_filter|]. intros y Hy. apply filter_In in Hy as [_ Hy]. now apply feqb_spec. }
      assert (H2 : length (filter (fun y => negb (feqb (fpow y m) x)) ys) <= length xs * m).
      { apply IH; [now apply NoDup_filter|]. intros y Hy. apply filter_In in Hy as [Hy Hx]. destruct (Hi y Hy) as [He|H]; [|exact H].
        symmetry in He. apply feqb_spec in He. rewrite He in Hx. discriminate. }
      cbn [length Nat.mul]. lia.
  Qed.

  Lemma spread_enough brs m n : 0 < m -> NoDup (map tb_y brs) -> (forall br, In br brs -> tb_x br = fpow (tb_y br) m) ->
    (n - 1) * m < length brs -> n <= length (spread [] brs).
  Proof.
    intros Hm Hn Hx Hl.
    assert (H : length (map tb_y brs) <= length (map tb_x (spread [] brs)) * m).
    { apply classes_bound; auto. intros y Hy. apply in_map_iff in Hy as [br [<- Hb]]. rewrite <- Hx by exact Hb.
      destruct (spread_all brs [] br Hb) as [[]|H]. exact H. }
    rewrite !map_length in H. destruct (le_lt_dec n (length (spread [] brs))) as [Hn'|Hn']; [exact Hn'|]. exfalso.
    assert (length (spread [] brs) * m <= (n - 1) * m) by (apply Nat.mul_le_mono_r; lia). lia.
  Qed.
End Spread.

Section C96Transparent.
  Context {R : Type} {P : pairing}.
  Notation K := (pK P).
  Variables (E : penv) (HE : 1 <= threads E) (r1 : sampler R (pG1 P)) (r2 : sampler R (pG2 P)).
  Variables (ck1 : list (pG1 P)) (ck2 : list (pG2 P)) (com : pGT P).
  Notation n := (length ck2).
  Notation m := (length ck1).

  Definition t_rewound (pr : t_prover P) Qs Ch k1 k2 L : list (t_branch P) :=
    let brs := t_branches pr Qs Ch k1 k2 m L in spread [] brs ++ brs.

  (** runs of [L] for the point [z] *)
  Definition runs_at (L : list (K * (list K * list K))) (z : K) : nat := length (filter (fun e => feqb z (fst e)) L).

  Lemma runs_found pr Qs Ch k1 k2 L z cv :
    often_both Qs Ch k1 k2 ((n - 1) * m) L cv -> 3 * (k1 + k2) * length Ch ^ (k1 + k2 - 1) < runs_at L z ->
    exists t1 t2, rewind_both (tpr_next_outer pr) (tpr_final_outer pr) (tpr_next_inner pr) (tpr_final_inner pr) (in_both L) Ch k1 k2 z = Some (t1, t2).
  Proof using.
    clear HE. intros [HQ [HC [HL [Hi _]]]] Hr.
    destruct (rewind_both _ _ _ _ _ _ _ _ z) as [[t1 t2]|] eqn:Er; [eauto|]. exfalso. apply few_both in Er.
    assert (runs_at L z <= length (accepted_pairs (in_both L) Ch k1 k2 z)); [|unfold lucky in Er; lia].
    unfold runs_at. rewrite <- (map_length (pair z) (accepted_pairs _ _ _ _ _)). apply NoDup_incl_length; [now apply NoDup_filter|].
    intros [q [cs1 cs2]] He. apply filter_In in He as [He Hz]. cbn [fst] in Hz. apply feqb_spec in Hz. subst q. apply in_map.
    destruct (Hi _ _ _ He) as [_ [H1 [H2 [H3 [H4 _]]]]]. unfold accepted_pairs. apply in_flat_map. exists cs1. split; [now apply sequences_in|].
    apply in_map, filter_In. split; [now apply sequences_in|now apply in_both_spec].
  Qed.

  (** A polynomial with the commitment com and with the claimed value at every point where the prover convinces more than
      3(k1+k2) N^(k1+k2-1) times; or a collision. *)
  Theorem C96_transparent_knowledge pr Qs Ch k1 k2 L : 0 < n -> 0 < m ->
    often_both Qs Ch k1 k2 ((n - 1) * m) L (t_convinces E r1 r2 (ck1, ck2) com pr) ->
    match t_extract n m (t_rewound pr Qs Ch k1 k2 L) with
    | inl p => length (concat p) = n * m /\
        (exists rows, tupc_commit P E r1 r2 (ck1, ck2) (concat p) = Ok (com, rows)) /\
        (forall z, In z Qs -> 3 * (k1 + k2) * length Ch ^ (k1 + k2 - 1) < runs_at L z -> poly_at (concat p) z = tpr_value pr z)
    | inr c => t_collides E r1 r2 ck1 ck2 c
    end.
  Proof using HE.
    intros Hn Hm Ho. pose proof Ho as [HQ [HC [HL [Hi Hl]]]].
    set (brs := t_branches pr Qs Ch k1 k2 m L).
    assert (Hx : forall br, In br brs -> tb_x br = fpow (tb_y br) m).
    { intros br Hb. unfold brs, t_branches in Hb. apply in_map_iff in Hb as [e [<- _]]. reflexivity. }
    assert (Hy : NoDup (map tb_y brs)) by (unfold brs, t_branches; rewrite map_map; cbn [tb_y]; now apply found_nodup).
    assert (Hlen : (n - 1) * m < length brs).
    { unfold brs, t_branches. rewrite map_length. apply (enough_branches _ _ _ _ _ _ _ _ Qs ((n - 1) * m) L HL); [|exact Hl].
      intros q cs1 cs2 Hq. destruct (Hi _ _ _ Hq) as [G1 [G2 [G3 [G4 [G5 _]]]]]. repeat (split; [assumption|]). now apply in_both_spec. }
    assert (Hsp : n <= length (spread [] brs)) by (apply (spread_enough brs m n); auto).
    assert (HF : Forall (t_uni_accepted E r1 r2 (ck1, ck2) com) brs).
    { apply Forall_forall. intros br Hb. pose proof (Hx br Hb) as Hxy. unfold brs, t_branches in Hb. apply in_map_iff in Hb as [[z [t1 t2]] [<- Hf]].
      apply found_spec in Hf as [_ Hf]. cbn [fst snd] in *. apply rewind_both_spec in Hf as [D1 [D2 [H1 [cs0 H2]]]]; [|exact HC].
      split; [exact Hxy|]. cbn [tb_outer tb_inner tb_comm tb_y tb_e].
      split; [|split; [|split; [exact D1|exact D2]]]; intros st cs base Hp.
      - destruct (H1 st cs base Hp) as [-> [-> [cs2 Hok]]]. apply in_both_spec in Hok. destruct (Hi _ _ _ Hok) as [_ [_ [_ [_ [_ Hc]]]]].
        destruct Hc as [D [fuel [X1 [X2 [X3 X4]]]]]. eexists D, fuel, _. split; [split; [exact X1|split; [|exact X4]]; reflexivity|]. auto.
      - destruct (H2 st cs base Hp) as [-> [-> Hok]]. apply in_both_spec in Hok. destruct (Hi _ _ _ Hok) as [_ [_ [_ [_ [_ Hc]]]]].
        destruct Hc as [D [fuel [X1 [X2 [X3 X4]]]]]. eexists D, fuel, _. split; [split; [exact X1|split; [|exact X4]]; reflexivity|]. auto. }
    assert (Hfirst : firstn n (spread [] brs ++ brs) = firstn n (spread [] brs)).
    { rewrite firstn_app. replace (n - length (spread [] brs)) with 0 by lia. apply app_nil_r. }
    pose proof (C76_univariate_special_sound E HE r1 r2 ck1 ck2 com (spread [] brs ++ brs)) as H. unfold t_rewound. fold brs.
    assert (H' : match t_extract n m (spread [] brs ++ brs) with
      | inl p => length (concat p) = n * m /\ (exists rows, tupc_commit P E r1 r2 (ck1, ck2) (concat p) = Ok (com, rows)) /\
          Forall (fun br => poly_at (concat p) (tb_y br) = tb_e br) (spread [] brs ++ brs)
      | inr c => t_collides E r1 r2 ck1 ck2 c end).
    { apply H; auto.
      - rewrite app_length. lia.
      - rewrite Hfirst. pose proof (spread_nodup brs []) as Hnd. rewrite <- (firstn_skipn n (spread [] brs)), map_app in Hnd. exact (nodup_prefix _ _ Hnd).
      - apply Forall_app. split; [|exact HF]. apply Forall_forall. intros br Hb. apply spread_incl in Hb as [Hb _]. rewrite Forall_forall in HF. now apply HF. }
    clear H. destruct (t_extract n m (spread [] brs ++ brs)) as [p|c]; [|exact H'].
    destruct H' as [H1 [H2 H3]]. split; [exact H1|]. split; [exact H2|]. intros z Hz Hr.
    destruct (runs_found pr Qs Ch k1 k2 L z _ Ho Hr) as [t1 [t2 Ht]]. rewrite Forall_forall in H3.
    apply (H3 (mk_t_branch (fpow z m) z (tpr_value pr z) (tpr_comm pr z) t1 t2)). apply in_or_app. right. unfold brs, t_branches.
    apply (in_map (fun e => mk_t_branch (fpow (fst e) m) (fst e) (tpr_value pr (fst e)) (tpr_comm pr (fst e)) (fst (snd e)) (snd (snd e))) _ (z, (t1, t2))).
    apply found_complete; assumption.
  Qed.
End C96Transparent.
Print Assumptions C96_transparent_knowledge.

(** ** Examples *)
(** The honest aggregate of [ex_pfs], rewound: three first challenges, ten round challenges; of the 3 * 10^2 runs all are accepted,
    more than 1 * 10^2 + 3 * (3 * 2 * 10). *)
Fixpoint bytes_same (x y : bytes) : bool :=
  match x, y with [], [] => true | a :: x, b :: y => N.eqb a b && bytes_same x y | _, _ => false end.
Definition w_of (r : ZP) : N := Z.to_N (zp_val r).
Definition v_of (cs : list ZP) : N := match cs with c :: _ => Z.to_N (zp_val (finv c)) | [] => 1%N end.
Definition ex96_prover : g16_prover ZPair :=
  mk_g16_prover (P := ZPair)
    (fun r => ag_ip_ab (ex75 1 (w_of r))) (fun r => ag_agg_c (ex75 1 (w_of r)))
    (fun r _ => ex75_step_ab (w_of r)) (fun r cs => gp_base (tp_gipa (ag_tipa_ab (ex75 (v_of cs) (w_of r)))))
    (fun r _ _ => ex75_step_c (w_of r)) (fun r _ cs => gp_base (ts_gipa (ag_tipa_c (ex75 (v_of cs) (w_of r))))).
(** a hash function for the challenges: 1/v1 for A and B, 1/v2 for C, and w *)
Definition ex96_input (w : N) : bytes :=
  gipa_hash_input (K := ZP) (OA := mod_carrier ZM) (OB := mod_carrier (fmod ZP)) (OT := identity_output ZM) 0 (zq 0) (fst (ex75_step_c w)) (snd (ex75_step_c w)).
Definition dig96 (input : bytes) (v1 v2 w : N) (b : bytes) : bytes := dig (if bytes_same b input then v2 else v1) w b.
Lemma dig96_16 i v1 v2 w : digest16 (dig96 i v1 v2 w).
Proof. intros b. apply dig16. Qed.
Definition ex96_vs : list N := [1; 2; 3; 4; 5; 6; 7; 8; 9; 10]%N.
Definition ex96_ws : list N := [2; 3; 4]%N.
Definition ex96_Qs : list ZP := map (fun w => f_ofN w) ex96_ws.
Definition ex96_Ch : list ZP := map chal ex96_vs.
Definition ex96_runs : list (N * (N * N)) := flat_map (fun w => flat_map (fun v1 => map (fun v2 => (w, (v1, v2))) ex96_vs) ex96_vs) ex96_ws.
Definition ex96_run (e : N * (N * N)) : ZP * (list ZP * list ZP) := (f_ofN (fst e), ([chal (fst (snd e))], [chal (snd (snd e))])).
Definition ex96_L : list (ZP * (list ZP * list ZP)) := map ex96_run ex96_runs.
Definition ex96_vsrs : vsrs ZPair := mk_vsrs (P := ZPair) (zq 1) (zq 1) (zq 3) (zq 2).

Definition ok_is {A} (eqb : A -> A -> bool) (x : res A) (y : A) : bool := match x with Ok x => eqb x y | _ => false end.
Lemma ok_is_true {A} (eqb : A -> A -> bool) x y : (forall a b, eqb a b = true -> a = b) -> ok_is eqb x y = true -> x = Ok y.
Proof. intros H. destruct x; cbn [ok_is]; try discriminate. intros E. now rewrite (H _ _ E). Qed.
Definition ok_fst {A B} (eqb : A -> A -> bool) (x : res (A * B)) (y : A) : bool := match x with Ok (x, _) => eqb x y | _ => false end.
Lemma ok_fst_true {A B} (eqb : A -> A -> bool) (x : res (A * B)) y : (forall a b, eqb a b = true -> a = b) -> ok_fst eqb x y = true -> exists z, x = Ok (y, z).
Proof. intros H. destruct x as [[a b]| | |]; cbn [ok_fst]; try discriminate. intros E. rewrite (H _ _ E). now exists b. Qed.

(** one run with one round each, by computation *)
Section Check.
  Context (pr : g16_prover ZPair) (ca cb cc : mod_carrier (pGT ZPair)) (w1 w2 : list ZP) (vs : vsrs ZPair) (vk : g16_vk ZPair) (inputs : list (list ZP)).
  Context (D : bytes -> bytes) (fuel : nat) (r c1 c2 : ZP) (o1 : pG2 ZPair * pG1 ZPair) (o2 : pG2 ZPair).
  Definition run_check : bool :=
    ok_is (@feqb ZP) (rand_challenge (K := ZP) D fuel 0 (g16_payload ZPair ca cb cc)) r &&
    ok_fst (@feqb ZP) (gipa_challenge (K := ZP) (OA := mod_carrier ZM) (OB := mod_carrier ZM) (OT := identity_output ZM) D fuel 0 (f0 : ZP)
      (fst (gpr_next_ab pr r [])) (snd (gpr_next_ab pr r []))) c1 &&
    ok_fst (@feqb ZP) (gipa_challenge (K := ZP) (OA := mod_carrier ZM) (OB := mod_carrier (fmod ZP)) (OT := identity_output ZM) D fuel 0 (f0 : ZP)
      (fst (gpr_next_c pr r [c1] [])) (snd (gpr_next_c pr r [c1] []))) c2 &&
    ok_is Bool.eqb (g16_verify ZPair ex_env1 D fuel ex_rand ex_rand vs vk inputs
      (mk_agg_proof (P := ZPair) ca cb cc (gpr_ip pr r) (gpr_agg pr r)
         (mk_tipa_proof (P := ZPair) (mk_gipa_proof (K := ZP) (MA := ZM) (MB := ZM) [gpr_next_ab pr r []] (gpr_final_ab pr r [c1]))
            (folded_key (K := ZP) (M := ZM) (shift_vec (K := ZP) (M := ZM) (finv r) w1) [finv c1], folded_key (K := ZP) (M := ZM) w2 [c1]) o1)
         (mk_tssm_proof (P := ZPair) (mk_gipa_proof (K := ZP) (MA := ZM) (MB := fmod ZP) [gpr_next_c pr r [c1] []] (gpr_final_c pr r [c1] [c2]))
            (folded_key (K := ZP) (M := ZM) w1 [finv c2]) o2))) true.
  Lemma run_check_ok : digest16 D -> length w1 = 2 -> run_check = true ->
    g16_convinces (P := ZPair) ex_env1 ex_rand ex_rand vs w1 w2 vk inputs ca cb cc pr r [c1] [c2].
  Proof.
    assert (Hf : forall a b : ZP, feqb a b = true -> a = b) by (intros a b; apply feqb_spec).
    intros HD Hw H. unfold run_check in H. apply andb_true_iff in H as [H H4]. apply andb_true_iff in H as [H H3]. apply andb_true_iff in H as [H1 H2].
    apply (ok_is_true _ _ _ Hf) in H1. apply (ok_fst_true _ _ _ Hf) in H2 as [z2 H2]. apply (ok_fst_true _ _ _ Hf) in H3 as [z3 H3].
    apply ok_is_true in H4; [|apply eqb_prop].
    exists D, fuel, o1, o2. split; [exact HD|]. split; [apply drawn_iff; exact H1|].
    split; [apply round_challenges_chain; [exact HD|]; econstructor; [exact H2|exact (chain_nil (K := ZP) (OA := mod_carrier ZM) (OB := mod_carrier ZM) (OT := identity_output ZM) _ _ _)]|].
    split; [apply round_challenges_chain; [exact HD|]; econstructor; [exact H3|exact (chain_nil (K := ZP) (OA := mod_carrier ZM) (OB := mod_carrier (fmod ZP)) (OT := identity_output ZM) _ _ _)]|].
    split; [exact Hw|]. split; [exact Hw|]. exact H4.
  Qed.
End Check.
Notation ex96_check := (fun e : N * (N * N) => run_check ex96_prover (ag_com_a (ex75 1 2)) (ag_com_b (ex75 1 2)) (ag_com_c (ex75 1 2)) (zl [1; 9]%Z) (zl [1; 4]%Z) ex96_vsrs ex_vk ex_inputs
    (dig96 (ex96_input (fst e)) (fst (snd e)) (snd (snd e)) (fst e)) 9 (f_ofN (fst e)) (chal (fst (snd e))) (chal (snd (snd e)))
    (tp_final_ck_proof (ag_tipa_ab (ex75 (fst (snd e)) (fst e)))) (ts_final_ck_proof (ag_tipa_c (ex75 (snd (snd e)) (fst e))))).
Lemma ex96_check_ok : forall e : N * (N * N), ex96_check e = true ->
  g16_convinces (P := ZPair) ex_env1 ex_rand ex_rand ex96_vsrs (zl [1; 9]%Z) (zl [1; 4]%Z) ex_vk ex_inputs
    (ag_com_a (ex75 1 2)) (ag_com_b (ex75 1 2)) (ag_com_c (ex75 1 2)) ex96_prover (f_ofN (fst e)) [chal (fst (snd e))] [chal (snd (snd e))].
Proof. intros e H. cbv beta in H. refine (run_check_ok _ _ _ _ _ _ _ _ _ _ _ _ _ _ _ _ (dig96_16 _ _ _ _) _ H). reflexivity. Qed.

(** lists without repetition, by computation *)
Fixpoint nodupb {A} (eqb : A -> A -> bool) (l : list A) : bool :=
  match l with [] => true | x :: l => negb (existsb (eqb x) l) && nodupb eqb l end.
Lemma nodupb_ok {A} (eqb : A -> A -> bool) l : (forall a, eqb a a = true) -> nodupb eqb l = true -> NoDup l.
Proof.
  intros H. induction l as [|x l IH]; cbn [nodupb]; [constructor|]. intros E. apply andb_true_iff in E as [E1 E2]. constructor; [|auto].
  intros Hi. apply negb_true_iff in E1. rewrite <- not_true_iff_false in E1. apply E1, existsb_exists. exists x. auto.
Qed.
Definition run_eqb (x y : ZP * (list ZP * list ZP)) : bool := feqb (fst x) (fst y) && same (fst (snd x)) (fst (snd y)) && same (snd (snd x)) (snd (snd y)).
Lemma run_eqb_refl x : run_eqb x x = true.
Proof. unfold run_eqb. rewrite !andb_true_iff. split; [split|]; [now apply feqb_spec|now apply same_spec..]. Qed.
Lemma feqb_refl (x : ZP) : feqb x x = true.
Proof. now apply feqb_spec. Qed.

Example C96_example_often : often_both ex96_Qs ex96_Ch 1 1 1 ex96_L
  (g16_convinces (P := ZPair) ex_env1 ex_rand ex_rand ex96_vsrs (zl [1; 9]%Z) (zl [1; 4]%Z) ex_vk ex_inputs
    (ag_com_a (ex75 1 2)) (ag_com_b (ex75 1 2)) (ag_com_c (ex75 1 2)) ex96_prover).
Proof.
  split; [apply (nodupb_ok feqb); [exact feqb_refl|vm_compute; reflexivity]|]. split; [apply (nodupb_ok feqb); [exact feqb_refl|vm_compute; reflexivity]|].
  split; [apply (nodupb_ok run_eqb); [exact run_eqb_refl|vm_compute; reflexivity]|]. split; [|vm_compute; lia].
  intros q cs1 cs2 H. unfold ex96_L in H. apply in_map_iff in H as [e [He Hi]].
  assert (Hall : forallb ex96_check ex96_runs = true) by (vm_compute; reflexivity).
  rewrite forallb_forall in Hall. pose proof (ex96_check_ok e (Hall e Hi)) as Hc. 
  unfold ex96_run in He. apply pair_equal_spec in He as [<- He]. apply pair_equal_spec in He as [<- <-].
  unfold ex96_runs in Hi. apply in_flat_map in Hi as [w [Hw Hi]]. apply in_flat_map in Hi as [v1 [Hv1 Hi]]. apply in_map_iff in Hi as [v2 [<- Hv2]].
  cbn [fst snd] in *. split; [now apply in_map|]. split; [reflexivity|]. split; [intros x [<-|[]]; now apply in_map|].
  split; [reflexivity|]. split; [intros x [<-|[]]; now apply in_map|]. exact Hc.
Qed.
Example C96_example_extracted :
  match g16_extract (g16_branches ex96_prover ex96_Qs ex96_Ch 1 ex96_L) with
  | Proofs [p1; p2] => zp_eqb (pf_a p1) (zq 85) && zp_eqb (pf_b p1) (zq 1) && zp_eqb (pf_c p1) (zq 2) &&
                       zp_eqb (pf_a p2) (zq 1) && zp_eqb (pf_b p2) (zq 59) && zp_eqb (pf_c p2) (zq 4)
  | _ => false
  end = true.
Proof. vm_compute. reflexivity. Qed.

(** The honest opening of 1 + 2z + 3z^2 + 4z^3 (see [C76_example]) at six points with ten round challenges; of the 6 * 10^2 runs all
    are accepted, more than 2 * 10^2 + 6 * (3 * 2 * 10). *)
Definition z_of (z : ZP) : Z := zp_val z.
Definition ex96t_prover : t_prover ZPair :=
  mk_t_prover (P := ZPair) (fun z => zq (1 + 2 * z_of z + 3 * z_of z ^ 2 + 4 * z_of z ^ 3)) (fun z => to_y_eval_comm (ex76 1 (z_of z)))
    (fun z _ => ex76_step_o (z_of z)) (fun z cs => gp_base (to_second (ex76 (v_of cs) (z_of z))))
    (fun z _ _ => ex76_step_i (z_of z)) (fun z _ cs => gp_base (to_first (ex76 (v_of cs) (z_of z)))).
Definition ex96t_input (z : Z) : bytes :=
  gipa_hash_input (K := ZP) (OA := mod_carrier ZM) (OB := mod_carrier (fmod ZP)) (OT := identity_output (fmod ZP)) 0 (zq 0) (fst (ex76_step_i z)) (snd (ex76_step_i z)).
Definition ex96t_zs : list Z := [3; 4; 5; 6; 7; 8]%Z.
Definition ex96t_Qs : list ZP := map zq ex96t_zs.
Definition ex96t_runs : list (Z * (N * N)) := flat_map (fun z => flat_map (fun v1 => map (fun v2 => (z, (v1, v2))) ex96_vs) ex96_vs) ex96t_zs.
Definition ex96t_run (e : Z * (N * N)) : ZP * (list ZP * list ZP) := (zq (fst e), ([chal (fst (snd e))], [chal (snd (snd e))])).
Definition ex96t_L : list (ZP * (list ZP * list ZP)) := map ex96t_run ex96t_runs.

Section CheckT.
  Context (pr : t_prover ZPair) (ck : list ZP * list ZP) (com : mod_carrier (pGT ZPair)) (D : bytes -> bytes) (fuel : nat) (z c1 c2 : ZP).
  Definition run_check_t : bool :=
    ok_fst (@feqb ZP) (gipa_challenge (K := ZP) (OA := mod_carrier ZM) (OB := mod_carrier (fmod ZP)) (OT := identity_output ZM) D fuel 0 (f0 : ZP)
      (fst (tpr_next_outer pr z [])) (snd (tpr_next_outer pr z []))) c1 &&
    ok_fst (@feqb ZP) (gipa_challenge (K := ZP) (OA := mod_carrier ZM) (OB := mod_carrier (fmod ZP)) (OT := identity_output (fmod ZP)) D fuel 0 (f0 : ZP)
      (fst (tpr_next_inner pr z [c1] [])) (snd (tpr_next_inner pr z [c1] []))) c2 &&
    ok_is Bool.eqb (tupc_verify ZPair ex_env1 D fuel ex_rand ex_rand ck com z (tpr_value pr z)
      (mk_t_opening (P := ZPair) (mk_gipa_proof (K := ZP) (MA := ZM) (MB := fmod ZP) [tpr_next_outer pr z []] (tpr_final_outer pr z [c1])) (tpr_comm pr z)
         (mk_gipa_proof (K := ZP) (MA := fmod ZP) (MB := fmod ZP) [tpr_next_inner pr z [c1] []] (tpr_final_inner pr z [c1] [c2])))) true.
  Lemma run_check_t_ok : digest16 D -> run_check_t = true -> t_convinces (P := ZPair) ex_env1 ex_rand ex_rand ck com pr z [c1] [c2].
  Proof.
    assert (Hf : forall a b : ZP, feqb a b = true -> a = b) by (intros a b; apply feqb_spec).
    intros HD H. unfold run_check_t in H. apply andb_true_iff in H as [H H4]. apply andb_true_iff in H as [H2 H3].
    apply (ok_fst_true _ _ _ Hf) in H2 as [z2 H2]. apply (ok_fst_true _ _ _ Hf) in H3 as [z3 H3].
    apply ok_is_true in H4; [|apply eqb_prop].
    exists D, fuel. split; [exact HD|].
    split; [apply round_challenges_chain; [exact HD|]; econstructor; [exact H2|exact (chain_nil (K := ZP) (OA := mod_carrier ZM) (OB := mod_carrier (fmod ZP)) (OT := identity_output ZM) _ _ _)]|].
    split; [apply round_challenges_chain; [exact HD|]; econstructor; [exact H3|exact (chain_nil (K := ZP) (OA := mod_carrier ZM) (OB := mod_carrier (fmod ZP)) (OT := identity_output (fmod ZP)) _ _ _)]|].
    exact H4.
  Qed.
End CheckT.
Notation ex96t_check := (fun e : Z * (N * N) =>
  run_check_t ex96t_prover ex76_ck (zq 431) (dig96 (ex96t_input (fst e)) (fst (snd e)) (snd (snd e)) 2) 9 (zq (fst e)) (chal (fst (snd e))) (chal (snd (snd e)))).
Lemma ex96t_check_ok : forall e : Z * (N * N), ex96t_check e = true ->
  t_convinces (P := ZPair) ex_env1 ex_rand ex_rand ex76_ck (zq 431) ex96t_prover (zq (fst e)) [chal (fst (snd e))] [chal (snd (snd e))].
Proof. intros e H. cbv beta in H. exact (run_check_t_ok _ _ _ _ _ _ _ _ (dig96_16 _ _ _ _) H). Qed.

Example C96_example_often_opened : often_both ex96t_Qs ex96_Ch 1 1 2 ex96t_L (t_convinces (P := ZPair) ex_env1 ex_rand ex_rand ex76_ck (zq 431) ex96t_prover).
Proof.
  split; [apply (nodupb_ok feqb); [exact feqb_refl|vm_compute; reflexivity]|]. split; [apply (nodupb_ok feqb); [exact feqb_refl|vm_compute; reflexivity]|].
  split; [apply (nodupb_ok run_eqb); [exact run_eqb_refl|vm_compute; reflexivity]|]. split; [|vm_compute; lia].
  intros q cs1 cs2 H. unfold ex96t_L in H. apply in_map_iff in H as [e [He Hi]].
  assert (Hall : forallb ex96t_check ex96t_runs = true) by (vm_compute; reflexivity).
  rewrite forallb_forall in Hall. pose proof (ex96t_check_ok e (Hall e Hi)) as Hc.
  unfold ex96t_run in He. apply pair_equal_spec in He as [<- He]. apply pair_equal_spec in He as [<- <-].
  unfold ex96t_runs in Hi. apply in_flat_map in Hi as [w [Hw Hi]]. apply in_flat_map in Hi as [v1 [Hv1 Hi]]. apply in_map_iff in Hi as [v2 [<- Hv2]].
  cbn [fst snd] in *. split; [now apply in_map|]. split; [reflexivity|]. split; [intros x [<-|[]]; now apply in_map|].
  split; [reflexivity|]. split; [intros x [<-|[]]; now apply in_map|]. exact Hc.
Qed.
Example C96_example_extracted_polynomial :
  match t_extract (P := ZPair) 2 2 (t_rewound (P := ZPair) (fst ex76_ck) ex96t_prover ex96t_Qs ex96_Ch 1 1 ex96t_L) with
  | inl [[a; b]; [c; d]] => zp_eqb a (zq 1) && zp_eqb b (zq 2) && zp_eqb c (zq 3) && zp_eqb d (zq 4)
  | _ => false
  end = true.
Proof. vm_compute. reflexivity. Qed.

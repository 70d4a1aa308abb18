(** C114: polynomial commitments are linear, and combinations of commitments can be opened. *)
Require Import List Arith NArith ZArith Lia Bool Field.
Import ListNotations.
Require Import Verif.Outcome Verif.Algebra Verif.Zp Verif.Rust Verif.InnerProducts Verif.Commitments
  Verif.Poly Verif.Gipa Verif.Tipa Verif.Ssm Verif.Floats Verif.PolyCommit Verif.Transparent
  Verif.Spec Verif.ListFacts Verif.RustFacts Verif.InnerProductFacts Verif.CommitFacts
  Verif.KeyFacts Verif.PolyFacts Verif.PcFacts Verif.UpcFacts Verif.TransparentFacts Verif.GipaFacts
  Verif.PropsBase Verif.PropsGipa Verif.PropsTipa Verif.PropsPoly Verif.PropsPcCommit.

Section Combine.
  Context {K : field}.
  Add Field KF : (f_theory K).
  (** c_0 x_0 + c_1 x_1 + .. *)
  Definition combined {M : module K} (cs : list K) (xs : list M) : M := big (length xs) (fun k => fat cs k *m at_ xs k).
  (** coefficient by coefficient *)
  Definition combines (cs : list K) (ps : list (list K)) (p : list K) : Prop :=
    forall j, fat p j = combined cs (map (fun q => (fat q j : fmod K)) ps).
  Definition combines2 (cs : list K) (ps : list (list (list K))) (p : list (list K)) : Prop :=
    forall i, combines cs (map (fun q => nth i q []) ps) (nth i p []).

  Lemma combined_lin {M N : module K} cs (f : M -> N) (xs : list M) :
    (forall a x, f (a *m x) = a *m f x) -> (forall x y, f (x +m y) = f x +m f y) -> f m0 = m0 ->
    f (combined cs xs) = combined cs (map f xs).
  Proof.
    intros Hs Ha H0. unfold combined. rewrite map_length.
    assert (Hn : forall n, n <= length xs -> f (big n (fun k => fat cs k *m at_ xs k)) = big n (fun k => fat cs k *m at_ (map f xs) k)).
    { induction n as [|n IH]; intros Hn; [exact H0|]. cbn [big]. rewrite Ha, IH, Hs by lia. f_equal. f_equal.
      unfold at_. rewrite (nth_indep _ m0 (f m0)) by (rewrite map_length; lia). symmetry. apply map_nth. }
    now apply Hn.
  Qed.
  (** sums of combinations *)
  Lemma combined_big {M : module K} cs {A} (xs : list A) n (F : A -> nat -> M) :
    big n (fun j => combined cs (map (fun x => F x j) xs)) = combined cs (map (fun x => big n (F x)) xs).
  Proof.
    destruct xs as [|x0 xs]; [unfold combined; cbn; now rewrite big_0|]. set (l := x0 :: xs).
    unfold combined. rewrite map_length.
    rewrite (big_ext _ _ (fun j => big (length l) (fun k => fat cs k *m F (nth k l x0) j))).
    2: { intros j _. rewrite map_length. apply big_ext. intros k Hk. f_equal. unfold at_.
         rewrite (nth_indep _ m0 (F x0 j)) by (rewrite map_length; lia). now rewrite (map_nth (fun x => F x j)). }
    rewrite big_swap. apply big_ext. intros k Hk. rewrite big_scale. f_equal. unfold at_.
    rewrite (nth_indep _ m0 (big n (F x0))) by (rewrite map_length; lia). now rewrite (map_nth (fun x => big n (F x))).
  Qed.
  Lemma combined_fscale {M : module K} cs (xs : list (fmod K)) (g : M) :
    (combined cs xs : K) *m g = combined cs (map (fun x : fmod K => (x : K) *m g) xs).
  Proof.
    apply (combined_lin cs (fun x : fmod K => (x : K) *m g)).
    - intros a x. exact (mscale_mul K M a x g).
    - intros x y. exact (mscale_add_l K M x y g).
    - exact (mscale_0_l K M g).
  Qed.
  Lemma combined_ext {M : module K} {A} cs (F G : A -> M) xs : (forall x, In x xs -> F x = G x) -> combined cs (map F xs) = combined cs (map G xs).
  Proof. intros H. f_equal. now apply map_ext_in. Qed.

  Lemma fat_resize n (p : list K) j : j < n -> fat (resize n f0 p) j = fat p j.
  Proof.
    intros Hj. unfold fat, resize. destruct (Nat.lt_ge_cases j (length (firstn n p))) as [H|H].
    - rewrite app_nth1 by auto. now apply nth_firstn_lt'.
    - rewrite app_nth2 by auto. rewrite nth_repeat. rewrite firstn_length in H. symmetry. apply nth_overflow. lia.
  Qed.
  Lemma dot_coefficients {M : module K} (key : list M) (p : list K) :
    dot smul key (resize (length key) f0 p : list (fmod K)) = big (length key) (fun j => fat p j *m at_ key j).
  Proof.
    rewrite (dot_big smul key (resize (length key) f0 p : list (fmod K))) by (symmetry; exact (resize_length (length key) f0 p)).
    apply big_ext. intros j Hj. unfold smul. change (at_ (resize (length key) f0 p : list (fmod K)) j) with (fat (resize (length key) f0 p) j).
    now rewrite fat_resize.
  Qed.
  (** a commitment to the coefficients is linear *)
  Lemma key_combines {M : module K} (key : list M) cs ps p : combines cs ps p ->
    dot smul key (resize (length key) f0 p : list (fmod K)) = combined cs (map (fun q => dot smul key (resize (length key) f0 q : list (fmod K))) ps).
  Proof.
    intros H. rewrite dot_coefficients.
    rewrite (combined_ext cs (fun q => dot smul key (resize (length key) f0 q : list (fmod K))) (fun q => big (length key) (fun j => fat q j *m at_ key j)))
      by (intros; apply dot_coefficients).
    rewrite <- (combined_big cs ps (length key) (fun q j => fat q j *m at_ key j)). apply big_ext. intros j Hj.
    rewrite (H j), combined_fscale, map_map. reflexivity.
  Qed.
  (** and so is the value at a point *)
  Lemma lengths_bound {A} (ps : list (list A)) (p : list A) : exists n, length p <= n /\ Forall (fun q => length q <= n) ps.
  Proof.
    induction ps as [|q ps (n & H1 & H2)]; [exists (length p); split; auto|]. exists (Nat.max (length q) n). split; [lia|].
    constructor; [lia|]. eapply Forall_impl; [|exact H2]. cbn. intros; lia.
  Qed.
  Lemma poly_at_pad (p : list K) n z : length p <= n -> poly_at p z = big n (fun j => (fat p j *f fpow z j : fmod K)).
  Proof. intros H. rewrite <- ev_poly_at, (ev_le_length p n) by auto. apply fbig_big. Qed.
  Lemma value_combines cs ps (p : list K) z : combines cs ps p -> poly_at p z = combined cs (map (fun q => (poly_at q z : fmod K)) ps).
  Proof.
    intros H. destruct (lengths_bound ps p) as (n & H1 & H2). rewrite (poly_at_pad p n z H1).
    rewrite (combined_ext cs (fun q => (poly_at q z : fmod K)) (fun q => big n (fun j => (fat q j *f fpow z j : fmod K)))).
    2: { intros q Hq. apply poly_at_pad. rewrite Forall_forall in H2. now apply H2. }
    rewrite <- (combined_big cs ps n (fun q j => (fat q j *f fpow z j : fmod K))). apply (big_ext (M := fmod K)). intros j Hj.
    rewrite (H j). etransitivity; [exact (combined_fscale (M := fmod K) cs _ (fpow z j))|]. now rewrite map_map.
  Qed.
  Lemma bipoly_at_pad (p : list (list K)) n x y : length p <= n -> bipoly_at p x y = big n (fun i => (fpow x i *f poly_at (nth i p []) y : fmod K)).
  Proof.
    intros H. unfold bipoly_at. etransitivity; [apply fbig_big|].
    assert (Hrow : forall i, fbig (length (nth i p [])) (fun j => fat (nth i p []) j *f (fpow x i *f fpow y j)) = fpow x i *f poly_at (nth i p []) y).
    { intros i. unfold poly_at. set (r := nth i p []). generalize (length r). intros m. induction m as [|m IH]; cbn [fbig]; [ring|]. rewrite IH. ring. }
    rewrite (big_ext (M := fmod K) _ _ (fun i => (fpow x i *f poly_at (nth i p []) y : fmod K))) by (intros i _; apply Hrow).
    assert (Hm : forall m, big (length p + m) (fun i => (fpow x i *f poly_at (nth i p []) y : fmod K)) = big (length p) (fun i => (fpow x i *f poly_at (nth i p []) y : fmod K))).
    { induction m as [|m IH]; [now rewrite Nat.add_0_r|]. rewrite Nat.add_succ_r. cbn [big]. rewrite IH.
      rewrite (nth_overflow p) by lia. replace (fpow x (length p + m) *f poly_at [] y) with (f0 : K) by (unfold poly_at; cbn; ring). apply (madd_0_r K (fmod K)). }
    replace n with (length p + (n - length p)) by lia. now rewrite Hm.
  Qed.
  Lemma bivalue_combines cs ps (p : list (list K)) x y : combines2 cs ps p -> bipoly_at p x y = combined cs (map (fun q => (bipoly_at q x y : fmod K)) ps).
  Proof.
    intros H. destruct (lengths_bound ps p) as (n & H1 & H2). rewrite (bipoly_at_pad p n x y H1).
    rewrite (combined_ext cs (fun q => (bipoly_at q x y : fmod K)) (fun q => big n (fun i => (fpow x i *f poly_at (nth i q []) y : fmod K)))).
    2: { intros q Hq. apply bipoly_at_pad. rewrite Forall_forall in H2. now apply H2. }
    rewrite <- (combined_big cs ps n (fun q i => (fpow x i *f poly_at (nth i q []) y : fmod K))). apply (big_ext (M := fmod K)). intros i Hi.
    rewrite (value_combines cs _ _ y (H i)), map_map. etransitivity.
    - apply (combined_lin (M := fmod K) (N := fmod K) cs (fun v : fmod K => (fpow x i *f v : fmod K))); cbn; intros; ring.
    - now rewrite map_map.
  Qed.
End Combine.

Section Kzg.
  Context {R : Type} {P : pairing}.
  Notation K := (pK P).

  Lemma kzg_commit_value (powers : list (pG1 P)) (p : list K) : degree_below (length powers) p ->
    kzg_commit powers p = Ok (dot smul powers (resize (length powers) f0 p : list (fmod K))).
  Proof.
    intros H. apply degree_below_wf in H as (d & H1 & H2). unfold kzg_commit. rewrite H1. cbn [rbind].
    destruct (Nat.leb_spec (d + 1) (length powers)); [|lia]. cbn [rassert rbind]. unfold msm.
    rewrite resize_length, Nat.eqb_refl. reflexivity.
  Qed.
  Lemma kzg_commit_inv (powers : list (pG1 P)) (p : list K) c : kzg_commit powers p = Ok c ->
    degree_below (length powers) p /\ c = dot smul powers (resize (length powers) f0 p : list (fmod K)).
  Proof.
    intros H. assert (Hd : degree_below (length powers) p).
    { apply degree_below_wf. unfold kzg_commit in H. destruct (poly_degree p) as [d| | |] eqn:Ed; try discriminate. cbn [rbind] in H.
      exists d. split; [exact Ed|]. destruct (Nat.leb_spec (d + 1) (length powers)); [lia|]. discriminate. }
    split; [exact Hd|]. rewrite (kzg_commit_value _ _ Hd) in H. now injection H as <-.
  Qed.

  (** Any key. *)
  Theorem C114_kzg_commit (powers : list (pG1 P)) cs ps coms (p : list K) :
    Forall2 (fun q c => kzg_commit powers q = Ok c) ps coms -> combines cs ps p -> degree_below (length powers) p ->
    kzg_commit powers p = Ok (combined cs coms).
  Proof.
    intros HF Hc Hd. rewrite (kzg_commit_value _ _ Hd). f_equal. rewrite (key_combines powers cs ps p Hc). f_equal.
    clear - HF. induction HF as [|q c ps coms Hq HF IH]; [reflexivity|]. cbn [map]. apply kzg_commit_inv in Hq as [_ ->]. now f_equal.
  Qed.
End Kzg.

(** ** Two tiers: the commitments to the rows are the vector committed to with the key in G2 *)
Section Tiers.
  Context {P : pairing}.
  Notation K := (pK P).
  Lemma rmapM_inv {A B} (f : A -> res B) (g : A -> B) : forall l r, rmapM f l = Ok r -> (forall x y, f x = Ok y -> y = g x) ->
    r = map g l /\ Forall (fun x => f x = Ok (g x)) l.
  Proof.
    induction l as [|a l IH]; cbn [rmapM]; intros r H Hg; [injection H as <-; split; [reflexivity|constructor]|].
    destruct (f a) as [b| | |] eqn:Ea; try discriminate. cbn [rbind] in H. destruct (rmapM f l) as [bs| | |] eqn:El; try discriminate.
    cbn [rbind] in H. injection H as <-. destruct (IH bs eq_refl Hg) as [-> HF]. pose proof (Hg a b Ea) as ->. split; [reflexivity|]. constructor; assumption.
  Qed.
  Definition row_value (key : list (pG1 P)) (row : list K) : pG1 P := dot smul key (resize (length key) f0 row : list (fmod K)).
  Definition row_values (key : list (pG1 P)) (n : nat) (p : list (list K)) : list (pG1 P) := map (row_value key) (resize n [] p).
  Definition two_tier (key : list (pG1 P)) (key2 : list (pG2 P)) (p : list (list K)) : pGT P * list (pG1 P) :=
    let coms := row_values key (length key2) p in (dot (phi_g1 P) key2 coms, coms).
  Definition combined_each {M : module K} (n : nat) (cs : list K) (xs : list (list M)) : list M :=
    map (fun i => combined cs (map (fun x => at_ x i) xs)) (seq 0 n).

  Lemma nth_resize_rows n (p : list (list K)) i : i < n -> nth i (resize n [] p) [] = nth i p [].
  Proof.
    intros Hi. unfold resize. destruct (Nat.lt_ge_cases i (length (firstn n p))) as [H|H].
    - rewrite app_nth1 by auto. now apply nth_firstn_lt'.
    - rewrite app_nth2 by auto. rewrite nth_repeat. rewrite firstn_length in H. symmetry. apply nth_overflow. lia.
  Qed.
  Lemma row_values_seq key n p : row_values key n p = map (fun i => row_value key (nth i p [])) (seq 0 n).
  Proof.
    unfold row_values. apply (nth_ext _ _ m0 m0).
    - now rewrite !map_length, seq_length, resize_length.
    - rewrite map_length, resize_length. intros i Hi.
      transitivity (row_value key (nth i (resize n [] p) [])).
      + rewrite <- (map_nth (row_value key)). apply nth_indep. rewrite map_length, resize_length. exact Hi.
      + rewrite nth_resize_rows by auto. symmetry. exact (at_map_seq (fun i => row_value key (nth i p [])) n i Hi).
  Qed.
  Lemma row_values_length key n p : length (row_values key n p) = n.
  Proof. now rewrite row_values_seq, map_length, seq_length. Qed.
  Lemma row_values_at key n p i : i < n -> at_ (row_values key n p) i = row_value key (nth i p []).
  Proof. intros Hi. rewrite row_values_seq. exact (at_map_seq (fun i => row_value key (nth i p [])) n i Hi). Qed.

  Lemma two_tier_combines key key2 cs ps p : combines2 cs ps p ->
    two_tier key key2 p = (combined cs (map (fun q => fst (two_tier key key2 q)) ps), combined_each (length key2) cs (map (fun q => snd (two_tier key key2 q)) ps)).
  Proof.
    intros H. unfold two_tier. cbn [fst snd].
    assert (Hrow : forall i, row_value key (nth i p []) = combined cs (map (fun q => row_value key (nth i q [])) ps)).
    { intros i. unfold row_value. rewrite (key_combines key cs _ _ (H i)), map_map. reflexivity. }
    f_equal.
    - rewrite dot_big by (now rewrite row_values_length).
      rewrite (combined_ext cs (fun q => dot (phi_g1 P) key2 (row_values key (length key2) q))
                (fun q => big (length key2) (fun i => pr_e P (row_value key (nth i q [])) (at_ key2 i)))).
      2: { intros q _. rewrite dot_big by (now rewrite row_values_length). apply big_ext. intros i Hi. unfold phi_g1. now rewrite row_values_at. }
      rewrite <- (combined_big cs ps (length key2) (fun q i => pr_e P (row_value key (nth i q [])) (at_ key2 i))).
      apply big_ext. intros i Hi. unfold phi_g1. rewrite row_values_at, Hrow by auto.
      rewrite (combined_lin cs (fun x => pr_e P x (at_ key2 i))).
      + now rewrite map_map.
      + intros a x. apply e_scale_l.
      + intros x y. apply e_add_l.
      + exact (bil_0_l _ (pr_e_bilinear P) _).
    - rewrite row_values_seq. unfold combined_each. apply map_ext_in. intros i Hi. apply in_seq in Hi. rewrite Hrow, map_map.
      apply combined_ext. intros q _. rewrite row_values_at by lia. reflexivity.
  Qed.
End Tiers.

Section Schemes.
  Context {R : Type} {P : pairing}.
  Notation K := (pK P).
  Variables (E : penv) (HE : 1 <= threads E).
  Variables (rand_g1 : sampler R (pG1 P)) (rand_g2 : sampler R (pG2 P)).

  Lemma outs_map {A B} (f : A -> res B) (g : A -> B) ps outs : Forall2 (fun q o => f q = Ok o) ps outs -> (forall q o, f q = Ok o -> o = g q) -> outs = map g ps.
  Proof. intros HF Hg. induction HF as [|q o ps outs Hq HF IH]; [reflexivity|]. cbn [map]. now rewrite (Hg _ _ Hq), IH. Qed.

  (** *** with a trusted setup *)
  Notation ck_of s := (fst (get_commitment_keys (fst s))).
  Lemma resize_forall {A} (Q : list A -> Prop) n p : Forall Q p -> (length p < n -> Q []) -> Forall Q (resize n [] p).
  Proof.
    intros H Hn. unfold resize. apply Forall_app. split.
    - apply Forall_forall. intros r Hr. rewrite Forall_forall in H. apply H. rewrite <- (firstn_skipn n p). apply in_or_app. now left.
    - apply Forall_forall. intros r Hr. pose proof (repeat_spec _ _ _ Hr) as ->. apply Hn. destruct (n - length p) as [|m] eqn:En; [destruct Hr|lia].
  Qed.
  Lemma bpc_value (s : srs P * list (pG1 P)) p : length p <= length (ck_of s) -> Forall (degree_below (length (snd s))) (resize (length (ck_of s)) [] p) ->
    bpc_commit P E rand_g2 s p = Ok (two_tier (snd s) (ck_of s) p).
  Proof using HE.
    destruct s as [ip kz]. cbn [fst snd]. intros Hl HF. unfold bpc_commit. set (ck := fst (get_commitment_keys ip)) in *.
    destruct (Nat.leb_spec (length p) (length ck)); [|lia]. cbn [rassert rbind]. rewrite chain_take_resize.
    rewrite (rmapM_ok_map _ (row_value kz)).
    2: { intros r Hr. rewrite Forall_forall in HF. now apply kzg_commit_value, HF. }
    cbn [rbind]. fold (row_values kz (length ck) p). rewrite (lc_commit _ _ _ (afgho_g1_law P E HE rand_g2)) by (now rewrite row_values_length). reflexivity.
  Qed.
  Lemma bpc_inv (s : srs P * list (pG1 P)) p o : bpc_commit P E rand_g2 s p = Ok o ->
    o = two_tier (snd s) (ck_of s) p /\ length p <= length (ck_of s) /\ Forall (degree_below (length (snd s))) (resize (length (ck_of s)) [] p).
  Proof using HE.
    intros H. assert (Hc : length p <= length (ck_of s) /\ Forall (degree_below (length (snd s))) (resize (length (ck_of s)) [] p)).
    { destruct s as [ip kz]. cbn [fst snd]. unfold bpc_commit in H. set (ck := fst (get_commitment_keys ip)) in *.
      destruct (Nat.leb_spec (length p) (length ck)) as [Hl|]; [|discriminate]. split; [exact Hl|]. cbn [rassert rbind] in H. rewrite chain_take_resize in H.
      destruct (rmapM _ _) as [coms| | |] eqn:Er; try discriminate.
      destruct (rmapM_inv _ (row_value kz) _ _ Er) as [_ HF]; [intros r c Hr; now apply kzg_commit_inv in Hr as [_ ->]|].
      eapply Forall_impl; [|exact HF]. cbn. intros r Hr. now apply kzg_commit_inv in Hr as [Hr _]. }
    split; [|exact Hc]. rewrite (bpc_value s p (proj1 Hc) (proj2 Hc)) in H. now injection H as <-.
  Qed.

  (** Any key: the commitment and the commitments to the rows, which the prover keeps for opening. *)
  Theorem C114_bivariate_commit (s : srs P * list (pG1 P)) cs ps outs p : ps <> [] ->
    Forall2 (fun q o => bpc_commit P E rand_g2 s q = Ok o) ps outs -> combines2 cs ps p ->
    length p <= length (ck_of s) -> Forall (degree_below (length (snd s))) p ->
    bpc_commit P E rand_g2 s p = Ok (combined cs (map fst outs), combined_each (length (ck_of s)) cs (map snd outs)).
  Proof using HE.
    intros Hne HF Hc Hl Hd. rewrite bpc_value.
    - rewrite (two_tier_combines _ _ cs ps p Hc). rewrite (outs_map _ (two_tier (snd s) (ck_of s)) ps outs HF) by (intros q o H; now apply bpc_inv in H as [-> _]).
      now rewrite !map_map.
    - exact Hl.
    - apply resize_forall; [exact Hd|]. intros Hlt. split; [|left; intros []; reflexivity].
      destruct HF as [|q o ps' outs' Hq _]; [congruence|]. apply bpc_inv in Hq as (_ & Hlq & Hq).
      destruct (resize (length (ck_of s)) [] q) as [|r rs] eqn:Er; [|inversion Hq as [|? ? [H1 _]]; exact H1].
      apply (f_equal (@length _)) in Er. rewrite resize_length in Er. cbn [length] in Er. lia.
  Qed.

  Lemma forms_combine xd yd cs (ps : list (list K)) bps (p : list K) bp :
    Forall2 (fun q b => bivariate_form (xd, yd) q = Ok b) ps bps -> bivariate_form (xd, yd) p = Ok bp ->
    combines cs ps p -> combines2 cs bps bp.
  Proof using.
    clear HE. intros HF Hb Hc i j.
    assert (Hfat : forall (q : list K) b, bivariate_form (xd, yd) q = Ok b ->
              fat (nth i b []) j = if (i <? xd + 1) && (j <? yd + 1) then fat q (i * (yd + 1) + j) else f0).
    { intros q b Hq. destruct (bivariate_form_ok xd yd q) as (b' & Hb' & Hl & Hrows & _). rewrite Hb' in Hq. injection Hq as ->.
      destruct (Nat.ltb_spec i (xd + 1)) as [Hi|Hi]; cbn [andb].
      - destruct (Nat.ltb_spec j (yd + 1)) as [Hj|Hj]; [eapply bivariate_form_fat; eauto|].
        unfold fat. apply nth_overflow. rewrite Forall_forall in Hrows. destruct (Hrows (nth i b [])) as [_ H]; [apply nth_In; lia|]. lia.
      - unfold fat. rewrite (nth_overflow b) by lia. destruct j; reflexivity. }
    rewrite (Hfat _ _ Hb), map_map. destruct ((i <? xd + 1) && (j <? yd + 1)) eqn:Eij.
    - rewrite (Hc (i * (yd + 1) + j)). f_equal. clear Hc Hb.
      induction HF as [|q b ps bps Hq HF IH]; [reflexivity|]. cbn [map]. now rewrite IH, (Hfat _ _ Hq).
    - replace (map (fun x => (fat (nth i x []) j : fmod K)) bps) with (map (fun _ : list (list K) => (m0 : fmod K)) bps).
      + unfold combined. symmetry. etransitivity; [|exact (big_0 (M := fmod K) (length (map (fun _ : list (list K) => (m0 : fmod K)) bps)))]. apply (big_ext (M := fmod K)). intros k Hk.
        unfold at_. replace (nth k _ m0) with (m0 : fmod K); [apply (mscale_0_r K (fmod K))|]. clear. revert k. induction bps as [|b bps IH]; intros [|k]; cbn [map nth]; auto.
      + clear Hc Hb. induction HF as [|q b ps bps Hq HF IH]; [reflexivity|]. cbn [map]. now rewrite IH, (Hfat _ _ Hq).
  Qed.

  Lemma forms_exist xd yd (ps : list (list K)) : exists bps, Forall2 (fun q b => bivariate_form (xd, yd) q = Ok b) ps bps.
  Proof using.
    induction ps as [|q ps (bps & IH)]; [exists []; constructor|]. destruct (bivariate_form_ok xd yd q) as (b & Hb & _). exists (b :: bps). now constructor.
  Qed.
  (** Any key that commit accepts, polynomials of any degree. *)
  Theorem C114_univariate_commit (s : srs P * list (pG1 P)) cs ps outs p : ps <> [] ->
    Forall2 (fun q o => upc_commit P E rand_g2 s q = Ok o) ps outs -> combines cs ps p ->
    upc_commit P E rand_g2 s p = Ok (combined cs (map fst outs), combined_each (length (ck_of s)) cs (map snd outs)).
  Proof using HE.
    intros Hne HF Hc.
    destruct (parse_degrees_srs P s) as [[xd yd]| | |] eqn:Ep.
    2-4: exfalso; destruct HF as [|q o ps' outs' Hq _]; [congruence|]; unfold upc_commit in Hq; rewrite Ep in Hq; discriminate.
    unfold upc_commit. rewrite Ep. cbn [rbind]. destruct (bivariate_form_ok xd yd p) as (bp & Hb & Hl & Hrows & _). rewrite Hb. cbn [rbind].
    destruct (forms_exist xd yd ps) as (bps & Hbs).
    assert (Hyd : yd + 1 = length (snd s)).
    { unfold parse_degrees_srs in Ep. destruct (Nat.ltb_spec 0 (length (h_beta_powers (fst s)))); [|discriminate].
      destruct (Nat.ltb_spec 0 (length (snd s))); [|discriminate]. cbn [rassert rbind] in Ep. injection Ep as _ <-. lia. }
    assert (HF' : Forall2 (fun q o => bpc_commit P E rand_g2 s q = Ok o) bps outs).
    { clear Hc Hne. revert outs HF. induction Hbs as [|q b ps bps Hq Hbs IH]; intros outs HF; inversion HF as [|? o ? outs' Ho HF']; subst; constructor; auto.
      unfold upc_commit in Ho. rewrite Ep in Ho. cbn [rbind] in Ho. now rewrite Hq in Ho. }
    apply C114_bivariate_commit with (ps := bps); auto.
    - intros ->. inversion Hbs. congruence.
    - eapply forms_combine; eauto.
    - destruct HF' as [|b o bps' outs' Ho _]; [inversion Hbs; congruence|]. apply bpc_inv in Ho as (_ & Ho & _). inversion Hbs as [|q ? ps' ? Hq]; subst.
      destruct (bivariate_form_ok xd yd q) as (b' & Hb' & Hl' & _). rewrite Hb' in Hq. injection Hq as ->. lia.
    - eapply Forall_impl; [|exact Hrows]. cbn. intros r [Hs Hr]. apply degree_below_wf. rewrite <- Hyd. apply wf_row_stripped; auto. lia.
  Qed.

  (** *** without a trusted setup *)
  Lemma tbpc_value ck1 ck2 p : length p <= length ck2 -> Forall (fun row => length row <= length ck1) p ->
    tbpc_commit P E rand_g1 rand_g2 (ck1, ck2) p = Ok (two_tier ck1 ck2 p).
  Proof using HE. exact (tbpc_commit_ok E HE rand_g1 rand_g2 ck1 ck2 p). Qed.
  Lemma tbpc_inv ck1 ck2 p o : tbpc_commit P E rand_g1 rand_g2 (ck1, ck2) p = Ok o ->
    o = two_tier ck1 ck2 p /\ length p <= length ck2 /\ Forall (fun row => length row <= length ck1) p.
  Proof using HE.
    intros H. destruct (C78_transparent_commit E HE rand_g1 rand_g2 ck1 ck2 p) as [_ Hbad]. cbv zeta in Hbad.
    destruct (le_dec (length p) (length ck2)) as [Hl|Hl]; [|rewrite Hbad in H by tauto; discriminate].
    destruct (Forall_dec (fun row : list K => length row <= length ck1) (fun row => le_dec (length row) (length ck1)) p) as [Hr|Hr];
      [|rewrite Hbad in H by tauto; discriminate].
    rewrite (tbpc_value _ _ _ Hl Hr) in H. injection H as <-. auto.
  Qed.
  Theorem C114_transparent_commit ck1 ck2 cs ps outs p :
    Forall2 (fun q o => tbpc_commit P E rand_g1 rand_g2 (ck1, ck2) q = Ok o) ps outs -> combines2 cs ps p ->
    length p <= length ck2 -> Forall (fun row => length row <= length ck1) p ->
    tbpc_commit P E rand_g1 rand_g2 (ck1, ck2) p = Ok (combined cs (map fst outs), combined_each (length ck2) cs (map snd outs)).
  Proof using HE.
    intros HF Hc Hl Hr. rewrite (tbpc_value _ _ _ Hl Hr), (two_tier_combines _ _ cs ps p Hc).
    rewrite (outs_map _ (two_tier ck1 ck2) ps outs HF) by (intros q o H; now apply tbpc_inv in H as [-> _]). now rewrite !map_map.
  Qed.
  Theorem C114_transparent_univariate_commit ck1 ck2 cs ps outs p : ck1 <> [] -> ck2 <> [] ->
    Forall2 (fun q o => tupc_commit P E rand_g1 rand_g2 (ck1, ck2) q = Ok o) ps outs -> combines cs ps p ->
    tupc_commit P E rand_g1 rand_g2 (ck1, ck2) p = Ok (combined cs (map fst outs), combined_each (length ck2) cs (map snd outs)).
  Proof using HE.
    intros Hk1 Hk2 HF Hc. assert (H1 : 1 <= length ck1) by (destruct ck1; [congruence|cbn; lia]). assert (H2 : 1 <= length ck2) by (destruct ck2; [congruence|cbn; lia]).
    assert (Ep : parse_degrees_ck P (ck1, ck2) = Ok (length ck2 - 1, length ck1 - 1)).
    { unfold parse_degrees_ck. cbn [fst snd]. destruct (Nat.ltb_spec 0 (length ck2)); [|lia]. destruct (Nat.ltb_spec 0 (length ck1)); [|lia]. reflexivity. }
    unfold tupc_commit. rewrite Ep. cbn [rbind]. destruct (bivariate_form_ok (length ck2 - 1) (length ck1 - 1) p) as (bp & Hb & Hl & Hrows & _). rewrite Hb. cbn [rbind].
    destruct (forms_exist (length ck2 - 1) (length ck1 - 1) ps) as (bps & Hbs).
    apply C114_transparent_commit with (ps := bps).
    - clear Hc. revert outs HF. induction Hbs as [|q b ps bps Hq Hbs IH]; intros outs HF; inversion HF as [|? o ? outs' Ho HF']; subst; constructor; auto.
      unfold tupc_commit in Ho. rewrite Ep in Ho. cbn [rbind] in Ho. now rewrite Hq in Ho.
    - eapply forms_combine; eauto.
    - lia.
    - eapply Forall_impl; [|exact Hrows]. cbn. intros r [_ Hr]. lia.
  Qed.
End Schemes.

(** ** Opening combinations

    From commitments to several polynomials and the auxiliary data kept with them one computes the commitment to a
    combination and its auxiliary data; the combination is opened with them, and the value shown is the
    combination of the values. *)
Section Openings.
  Context {R : Type} {P : pairing}.
  Notation K := (pK P).
  Variables (E E' : penv) (HE : 1 <= threads E) (HE' : 1 <= threads E').
  Variable D : bytes -> bytes.
  Variable fuel : nat.
  Variable rand : sampler R K.
  Variables (rand_g1 rand_g1' : sampler R (pG1 P)) (rand_g2 rand_g2' : sampler R (pG2 P)).
  Notation ck_of s := (fst (get_commitment_keys (fst s))).

  Lemma outs_exist {A B} (f : A -> res B) (Q : A -> Prop) ps : Forall Q ps -> (forall q, Q q -> exists o, f q = Ok o) -> exists outs, Forall2 (fun q o => f q = Ok o) ps outs.
  Proof using.
    intros HF H. induction HF as [|q ps Hq _ (outs & IH)]; [exists []; constructor|]. destruct (H q Hq) as (o & Ho). exists (o :: outs). now constructor.
  Qed.

  Theorem C114_kzg_open (rng : R) d : exists powers v rng', kzg_setup rand rng d = Ok (powers, v, rng') /\
    forall cs ps (p : list K) z, Forall (degree_below (d + 1)) ps -> degree_below (d + 1) p -> combines cs ps p ->
    exists coms proof, Forall2 (fun q c => kzg_commit powers q = Ok c) ps coms /\
      kzg_open powers p z = Ok proof /\
      kzg_verify v (combined cs coms) z (combined cs (map (fun q => (poly_at q z : fmod K)) ps)) proof = Ok true.
  Proof using.
    destruct (C32_kzg_complete rand rng d) as (powers & v & rng' & Hs & Hc). exists powers, v, rng'. split; [exact Hs|].
    intros cs ps p z Hps Hp Hcomb.
    destruct (outs_exist (kzg_commit powers) (degree_below (d + 1)) ps Hps) as (coms & Hcoms).
    { intros q Hq. destruct (Hc q z Hq) as (? & H & _). eauto. }
    destruct (Hc p z Hp) as (proof & H1 & H2 & H3). exists coms, proof. split; [exact Hcoms|]. split; [exact H2|].
    rewrite <- (value_combines cs ps p z Hcomb).
    pose proof (kzg_commit_inv _ _ _ H1) as [Hd _]. rewrite (C114_kzg_commit powers cs ps coms p Hcoms Hcomb Hd) in H1. injection H1 as ->. exact H3.
  Qed.

  Theorem C114_bivariate_open (rng : R) k xd yd : digest16 D -> xd + 1 = 2 ^ S k ->
    exists s rng' v, bpc_setup P rand rng xd yd = Ok (s, rng') /\ get_verifier_key (fst s) = Ok v /\
      forall cs ps p x y, ps <> [] -> Forall (fun q => length q <= xd + 1 /\ Forall (degree_below (yd + 1)) q) ps ->
      length p <= xd + 1 -> Forall (degree_below (yd + 1)) p -> combines2 cs ps p ->
      exists outs, Forall2 (fun q o => bpc_commit P E rand_g2 s q = Ok o) ps outs /\
        let com := combined cs (map fst outs) in
        let coms := combined_each (length (ck_of s)) cs (map snd outs) in
        (bpc_open P E D fuel rand_g2 s p coms (x, y) = Loop \/
         exists proof, bpc_open P E D fuel rand_g2 s p coms (x, y) = Ok proof /\
           bpc_verify P E' D fuel rand_g2' v com (x, y) (combined cs (map (fun q => (bipoly_at q x y : fmod K)) ps)) proof = Ok true).
  Proof using HE HE'.
    intros HD Hx. destruct (C34_bivariate_complete E E' HE HE' D fuel rand rand_g2 rand_g2' rng k xd yd HD Hx) as (s & rng' & v & Hs & Hv & Hc).
    exists s, rng', v. split; [exact Hs|]. split; [exact Hv|]. intros cs ps p x y Hne Hps Hl Hp Hcomb.
    destruct (outs_exist (bpc_commit P E rand_g2 s) _ ps Hps) as (outs & Houts).
    { intros q [Hq1 Hq2]. destruct (Hc q x y Hq1 Hq2) as (? & ? & H & _). eauto. }
    exists outs. split; [exact Houts|]. cbv zeta. rewrite <- (bivalue_combines cs ps p x y Hcomb).
    destruct (Hc p x y Hl Hp) as (com & coms & H1 & H2). pose proof (bpc_inv E HE rand_g2 s p _ H1) as (_ & Hl2 & Hr).
    assert (Hr' : Forall (degree_below (length (snd s))) p).
    { apply Forall_forall. intros r Hin. rewrite Forall_forall in Hr. apply Hr. unfold resize. apply in_or_app. left. now rewrite firstn_all2. }
    rewrite (C114_bivariate_commit E HE rand_g2 s cs ps outs p Hne Houts Hcomb Hl2 Hr') in H1. set (cm := combined_each _ cs (map snd outs)) in *. injection H1 as <- <-. exact H2.
  Qed.

  Theorem C114_univariate_open (rng : R) d : digest16 D -> 1 <= d -> (Z.of_nat d < 2 ^ 52)%Z ->
    exists s rng' v, upc_setup P rand rng d = Ok (s, rng') /\ get_verifier_key (fst s) = Ok v /\
      forall cs ps p z, ps <> [] -> Forall (degree_below (d + 1)) ps -> degree_below (d + 1) p -> combines cs ps p ->
      exists outs, Forall2 (fun q o => upc_commit P E rand_g2 s q = Ok o) ps outs /\
        let com := combined cs (map fst outs) in
        let coms := combined_each (length (ck_of s)) cs (map snd outs) in
        (upc_open P E D fuel rand_g2 s p coms z = Loop \/
         exists proof, upc_open P E D fuel rand_g2 s p coms z = Ok proof /\
           upc_verify P E' D fuel rand_g2' v d com z (combined cs (map (fun q => (poly_at q z : fmod K)) ps)) proof = Ok true).
  Proof using HE HE'.
    intros HD Hd Hlt. destruct (C38_univariate_complete E E' HE HE' D fuel rand rand_g2 rand_g2' rng d HD Hd Hlt) as (s & rng' & v & Hs & Hv & Hc).
    exists s, rng', v. split; [exact Hs|]. split; [exact Hv|]. intros cs ps p z Hne Hps Hp Hcomb.
    destruct (outs_exist (upc_commit P E rand_g2 s) _ ps Hps) as (outs & Houts).
    { intros q Hq. destruct (Hc q z Hq) as (? & ? & H & _). eauto. }
    exists outs. split; [exact Houts|]. cbv zeta. rewrite <- (value_combines cs ps p z Hcomb).
    destruct (Hc p z Hp) as (com & coms & H1 & H2).
    rewrite (C114_univariate_commit E HE rand_g2 s cs ps outs p Hne Houts Hcomb) in H1. set (cm := combined_each _ cs (map snd outs)) in *. injection H1 as <- <-. exact H2.
  Qed.

  Theorem C114_transparent_univariate_open (rng : R) d : digest16 D -> 1 <= d -> (Z.of_nat d < 2 ^ 52)%Z ->
    exists ck rng', tupc_setup P E rand_g1 rand_g2 rng d = Ok (ck, rng') /\
      forall cs ps p z, Forall (degree_below (d + 1)) ps -> degree_below (d + 1) p -> combines cs ps p ->
      exists outs, Forall2 (fun q o => tupc_commit P E rand_g1 rand_g2 ck q = Ok o) ps outs /\
        let com := combined cs (map fst outs) in
        let coms := combined_each (length (snd ck)) cs (map snd outs) in
        (tupc_open P E D fuel rand_g1 rand_g2 ck p coms z = Loop \/
         exists proof, tupc_open P E D fuel rand_g1 rand_g2 ck p coms z = Ok proof /\
           tupc_verify P E' D fuel rand_g1' rand_g2' ck com z (combined cs (map (fun q => (poly_at q z : fmod K)) ps)) proof = Ok true).
  Proof using HE HE'.
    intros HD Hd Hlt. destruct (C40_univariate_complete E E' HE HE' D fuel rand_g1 rand_g1' rand_g2 rand_g2' rng d HD Hd Hlt) as (ck & rng' & Hs & Hc).
    exists ck, rng'. split; [exact Hs|]. intros cs ps p z Hps Hp Hcomb.
    destruct (outs_exist (tupc_commit P E rand_g1 rand_g2 ck) _ ps Hps) as (outs & Houts).
    { intros q Hq. destruct (Hc q z Hq) as (? & ? & H & _). eauto. }
    exists outs. split; [exact Houts|]. cbv zeta. rewrite <- (value_combines cs ps p z Hcomb).
    destruct (Hc p z Hp) as (com & coms & H1 & H2). destruct ck as [ck1 ck2]. cbn [snd].
    assert (Hne : ck1 <> [] /\ ck2 <> []).
    { unfold tupc_commit, parse_degrees_ck in H1. cbn [fst snd] in H1. split; intros ->; [|discriminate H1].
      destruct (0 <? length ck2); discriminate H1. }
    rewrite (C114_transparent_univariate_commit E HE rand_g1 rand_g2 ck1 ck2 cs ps outs p (proj1 Hne) (proj2 Hne) Houts Hcomb) in H1. set (cm := combined_each _ cs (map snd outs)) in *. injection H1 as <- <-. exact H2.
  Qed.
End Openings.
Print Assumptions C114_kzg_commit.
Print Assumptions C114_bivariate_commit.
Print Assumptions C114_univariate_commit.
Print Assumptions C114_transparent_commit.
Print Assumptions C114_transparent_univariate_commit.
Print Assumptions C114_kzg_open.
Print Assumptions C114_bivariate_open.
Print Assumptions C114_univariate_open.
Print Assumptions C114_transparent_univariate_open.

(** 2 (1 + 2 X + 3 X^2 + 4 X^3) + 3 (5 + 6 X + 7 X^2 + 31 X^3) = 17 + 22 X + 27 X^2 modulo 101: the leading terms
    cancel, and the combination has fewer coefficients than either. *)
Example C114_combines_example : combines (K := ZP) (zl [2; 3]%Z) [zl [1; 2; 3; 4]%Z; zl [5; 6; 7; 31]%Z] (zl [17; 22; 27]%Z).
Proof. intros [|[|[|[|j]]]]; [reflexivity..|]. destruct j; reflexivity. Qed.
(** The combination is opened with the combined commitment and the combined auxiliary data at 3, where the polynomials have
    the values 142 and 5 + 18 + 63 + 837 = 923, and 17 + 66 + 243 = 326 = 2 142 + 3 923 modulo 101. *)
Definition ex_combination (e : Z) : res bool :=
  do (s, _) <- upc_setup ZPair ex_rand 5%Z 3;
  do v <- get_verifier_key (fst s);
  do (com1, coms1) <- upc_commit ZPair ex_env ex_rand s (zl [1; 2; 3; 4]%Z);
  do (com2, coms2) <- upc_commit ZPair ex_env ex_rand s (zl [5; 6; 7; 31]%Z);
  let com := combined (K := ZP) (M := pGT ZPair) (zl [2; 3]%Z) [com1; com2] in
  let coms := combined_each (P := ZPair) (M := pG1 ZPair) 2 (zl [2; 3]%Z) [coms1; coms2] in
  do proof <- upc_open ZPair ex_env toy_digest 9 ex_rand s (zl [17; 22; 27]%Z) coms (zq 3);
  upc_verify ZPair ex_env1 toy_digest 9 ex_rand v 3 com (zq 3) (zq e) proof.
Example C114_example : ex_combination 326 = Ok true /\ ex_combination 327 = Ok false.
Proof. vm_compute. split; reflexivity. Qed.
Definition ex_tcombination (e : Z) : res bool :=
  do (ck, _) <- tupc_setup ZPair ex_env ex_rand ex_rand 5%Z 3;
  do (com1, coms1) <- tupc_commit ZPair ex_env ex_rand ex_rand ck (zl [1; 2; 3; 4]%Z);
  do (com2, coms2) <- tupc_commit ZPair ex_env ex_rand ex_rand ck (zl [5; 6; 7; 31]%Z);
  let com := combined (K := ZP) (M := pGT ZPair) (zl [2; 3]%Z) [com1; com2] in
  let coms := combined_each (P := ZPair) (M := pG1 ZPair) (length (snd ck)) (zl [2; 3]%Z) [coms1; coms2] in
  do proof <- tupc_open ZPair ex_env toy_digest 9 ex_rand ex_rand ck (zl [17; 22; 27]%Z) coms (zq 3);
  tupc_verify ZPair ex_env1 toy_digest 9 ex_rand ex_rand ck com (zq 3) (zq e) proof.
Example C114_transparent_example : ex_tcombination 326 = Ok true /\ ex_tcombination 327 = Ok false.
Proof. vm_compute. split; reflexivity. Qed.

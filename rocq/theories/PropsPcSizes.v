(** Property C119: a bivariate commitment does not depend on the size of the reference string it was made with. *)
Require Import List Arith NArith ZArith Lia Bool Field.
Import ListNotations.
Require Import Verif.Outcome Verif.Algebra Verif.Zp Verif.Rust Verif.InnerProducts Verif.Commitments
  Verif.Gipa Verif.Poly Verif.Tipa Verif.Ssm Verif.Floats Verif.PolyCommit Verif.Transparent Verif.Spec Verif.ListFacts
  Verif.RustFacts Verif.InnerProductFacts Verif.CommitFacts Verif.GipaFacts
  Verif.PolyFacts Verif.KeyFacts Verif.PcFacts Verif.UpcFacts Verif.TransparentFacts
  Verif.PropsBase Verif.PropsGipa Verif.PropsTipa Verif.PropsPoly Verif.PropsPcCommit.

Lemma big_longer {K : field} {M : module K} n m (f : nat -> M) : n <= m -> (forall i, n <= i -> i < m -> f i = m0) -> big m f = big n f.
Proof.
  intros Hnm Hz. replace m with (n + (m - n)) by lia. rewrite big_split.
  rewrite (big_ext (m - n) (fun i => f (n + i)) (fun _ => m0)) by (intros i Hi; apply Hz; lia).
  rewrite big_0. apply madd_0_r.
Qed.

Section C119.
  Context {R : Type} {P : pairing}.
  Notation K := (pK P).
  Add Field KfC119 : (f_theory (pK P)).
  Variables (E E' : penv) (HE : 1 <= threads E) (HE' : 1 <= threads E').
  Variable D : bytes -> bytes.
  Variable fuel : nat.
  Variables (rand : sampler R (pK P)) (r1 : sampler R (pG1 P)) (r2 r2' : sampler R (pG2 P)).

  Lemma e_m0_l x : pr_e P m0 x = m0.
  Proof using. apply (bil_0_l (pr_e P)). apply pr_e_bilinear. Qed.

  (** [p] has at most [n] rows, each normalised and with at most [m] coefficients *)
  Definition fits_in (n m : nat) (p : bipoly K) : Prop := length p <= n /\ Forall (degree_below m) p.

  (** mod.rs: two setups from the same state of the generator, for different degrees, leave the generator in the same state
      and give the same verifier key; a polynomial that fits both has one commitment. *)
  Theorem C119_bivariate (rng : R) xd yd xd' yd' s s' g g' :
    bpc_setup P rand rng xd yd = Ok (s, g) -> bpc_setup P rand rng xd' yd' = Ok (s', g') ->
    g = g' /\ get_verifier_key (fst s) = get_verifier_key (fst s') /\
    forall p, fits_in (xd + 1) (yd + 1) p -> fits_in (xd' + 1) (yd' + 1) p ->
    exists com coms coms', bpc_commit P E r2 s p = Ok (com, coms) /\ bpc_commit P E r2 s' p = Ok (com, coms') /\
      length coms = xd + 1 /\ length coms' = xd' + 1 /\ forall i, at_ coms i = at_ coms' i.
  Proof using HE.
    clear HE'. intros Hs Hs'. split; [|split].
    - unfold bpc_setup in Hs, Hs'. destruct (rand rng) as [a g1]. destruct (rand g1) as [b g2].
      repeat (apply rbind_ok in Hs as [? [_ Hs]]). repeat (apply rbind_ok in Hs' as [? [_ Hs']]). congruence.
    - destruct (bpc_setup_ok (P := P) rand rng xd yd) as [? H]. rewrite Hs in H. injection H as -> _.
      destruct (bpc_setup_ok (P := P) rand rng xd' yd') as [? H]. rewrite Hs' in H. injection H as -> _.
      now rewrite !trap_bsrs_vkey.
    - intros p [Hl Hr] [Hl' Hr'].
      destruct (proj1 (C78_bivariate_commit E HE rand r2 rng xd yd s g p Hs) (conj Hl Hr)) as [coms [Hc [Ha Hk]]].
      destruct (proj1 (C78_bivariate_commit E HE rand r2 rng xd' yd' s' g' p Hs') (conj Hl' Hr')) as [coms' [Hc' [Ha' Hk']]].
      eexists _, coms, coms'. split; [exact Hk|]. split; [|split; [exact Hc|split; [exact Hc'|]]].
      + rewrite Hk'. f_equal. f_equal. f_equal. set (f := fun i : nat => _).
        assert (Hz : forall i, length p <= i -> f i = f0).
        { intros i Hi. unfold f. rewrite nth_overflow by exact Hi. unfold poly_at. cbn. ring. }
        rewrite !fbig_big. transitivity (big (M := fmod K) (length p) f); [|symmetry].
        * apply (big_longer (M := fmod K) _ _ f); [lia|intros; now apply Hz].
        * apply (big_longer (M := fmod K) _ _ f); [lia|intros; now apply Hz].
      + assert (Hb : forall n (cs : list (pG1 P)), length p <= n -> length cs = n ->
          (forall i, i < n -> at_ cs i = poly_at (nth i p []) (fst (rand rng)) *m pr_g P) ->
          forall i, at_ cs i = poly_at (nth i p []) (fst (rand rng)) *m pr_g P).
        { intros n cs Hp Hn Hat i. destruct (lt_dec i n) as [Hi|Hi]; [now apply Hat|]. unfold at_ at 1.
          rewrite nth_overflow by lia. rewrite nth_overflow by lia. unfold poly_at. cbn. symmetry. apply mscale_0_l. }
        intros i. rewrite (Hb _ coms Hl Hc Ha i). symmetry. now apply (Hb _ coms' Hl' Hc').
  Qed.

  (** An opening made with one string is accepted for the commitment made with the other, by the verifier key of either. *)
  Theorem C119_cross_open (rng : R) k xd yd xd' yd' s s' g g' v p x y com coms com' coms' :
    digest16 D -> xd + 1 = 2 ^ S k ->
    bpc_setup P rand rng xd yd = Ok (s, g) -> bpc_setup P rand rng xd' yd' = Ok (s', g') ->
    get_verifier_key (fst s') = Ok v ->
    fits_in (xd + 1) (yd + 1) p -> fits_in (xd' + 1) (yd' + 1) p ->
    bpc_commit P E r2 s p = Ok (com, coms) -> bpc_commit P E r2 s' p = Ok (com', coms') ->
    bpc_open P E D fuel r2 s p coms (x, y) = Loop \/
    exists proof, bpc_open P E D fuel r2 s p coms (x, y) = Ok proof /\
      bpc_verify P E' D fuel r2' v com' (x, y) (bipoly_at p x y) proof = Ok true.
  Proof using HE HE'.
    intros HD Hx Hs Hs' Hv Hf Hf' Hc Hc'.
    destruct (C119_bivariate rng xd yd xd' yd' s s' g g' Hs Hs') as [_ [Hvk Hcom]].
    destruct (Hcom p Hf Hf') as [c [cs [cs' [H1 [H2 _]]]]]. rewrite Hc in H1. injection H1 as <- <-.
    rewrite Hc' in H2. injection H2 as -> <-. rewrite <- Hvk in Hv. destruct Hf as [Hl Hr].
    destruct (C34_bivariate_complete E E' HE HE' D fuel rand r2 r2' rng k xd yd HD Hx) as [s0 [g0 [v0 [Hs0 [Hv0 Hall]]]]].
    rewrite Hs in Hs0. injection Hs0 as <- <-. rewrite Hv in Hv0. injection Hv0 as <-.
    destruct (Hall p x y Hl Hr) as [c0 [cs0 [Hc0 Ho]]]. rewrite Hc in Hc0. injection Hc0 as <- <-. exact Ho.
  Qed.

  (** transparent.rs: shorter keys that are prefixes of longer ones give the same commitment. *)
  Theorem C119_transparent (ck1 : list (pG1 P)) (ck2 : list (pG2 P)) n m (p : bipoly K) :
    n <= length ck1 -> m <= length ck2 -> length p <= m -> Forall (fun row => length row <= n) p ->
    exists com coms, tbpc_commit P E r1 r2 (firstn n ck1, firstn m ck2) p = Ok (com, firstn m coms) /\
      tbpc_commit P E r1 r2 (ck1, ck2) p = Ok (com, coms).
  Proof using HE.
    clear HE'. intros Hn Hm Hl Hr.
    assert (L1 : length (firstn n ck1) = n) by (rewrite firstn_length; lia).
    assert (L2 : length (firstn m ck2) = m) by (rewrite firstn_length; lia).
    destruct (proj1 (C78_transparent_commit E HE r1 r2 ck1 ck2 p)) as [coms [Hc [Ha Hk]]].
    { split; [lia|]. eapply Forall_impl; [|exact Hr]. cbn. intros; lia. }
    destruct (proj1 (C78_transparent_commit E HE r1 r2 (firstn n ck1) (firstn m ck2) p)) as [coms' [Hc' [Ha' Hk']]].
    { rewrite L1, L2. auto. }
    rewrite L1, L2 in *.
    assert (Hrow : forall i j, n <= j -> fat (nth i p []) j = (f0 : K)).
    { intros i j Hj. apply nth_overflow. destruct (lt_dec i (length p)) as [Hi|Hi].
      - rewrite Forall_forall in Hr. specialize (Hr _ (nth_In p [] Hi)). lia.
      - rewrite nth_overflow by lia. cbn. lia. }
    assert (Hfst : forall A (d : A) l a i, i < a -> nth i (firstn a l) d = nth i l d).
    { intros A d l. induction l as [|z l IH]; intros a i Hi; [now rewrite firstn_nil|]. destruct a; [lia|]. destruct i; [reflexivity|].
      cbn. apply IH. lia. }
    assert (Heq : forall i, i < m -> at_ coms' i = at_ coms i).
    { intros i Hi. rewrite Ha' by exact Hi. rewrite Ha by lia. symmetry.
      rewrite (big_longer n (length ck1)); [|lia|].
      - apply big_ext. intros j Hj. f_equal. unfold at_. symmetry. now apply Hfst.
      - intros j Hj _. rewrite Hrow by exact Hj. apply mscale_0_l. }
    assert (Hpre : coms' = firstn m coms).
    { apply (nth_ext _ _ m0 m0); [rewrite firstn_length; lia|]. intros i Hi. rewrite Hfst by lia. apply Heq. lia. }
    eexists _, coms. split; [|exact Hk]. rewrite Hk', Hpre. f_equal. f_equal. symmetry.
    rewrite (big_longer m (length ck2)); [|lia|].
    - apply big_ext. intros i Hi. unfold at_. rewrite !Hfst by exact Hi. reflexivity.
    - intros i Hi Hi2. rewrite Ha by exact Hi2. rewrite nth_overflow by lia.
      rewrite (big_ext (length ck1) _ (fun _ => m0)); [rewrite big_0; apply e_m0_l|].
      intros j _. unfold fat. rewrite nth_overflow by (cbn; lia). apply mscale_0_l.
  Qed.
End C119.
Print Assumptions C119_bivariate.
Print Assumptions C119_cross_open.
Print Assumptions C119_transparent.

(** Strings for degrees (3, 1) and (7, 2): the same commitment to (3 + 4y) + (5 + 6y) x, and the opening made with the longer
    one is accepted for the commitment made with the shorter one, with the shorter one's verifier key. *)
Definition ex119 (e : Z) : res (bool * bool) :=
  let p := [zl [3; 4]; zl [5; 6]]%Z in
  do (s, _) <- bpc_setup ZPair ex_scalars 5%Z 3 1;
  do (s', _) <- bpc_setup ZPair ex_scalars 5%Z 7 2;
  do v <- get_verifier_key (fst s);
  do (com, _) <- bpc_commit ZPair ex_env ex_rand s p;
  do (com', coms') <- bpc_commit ZPair ex_env ex_rand s' p;
  do proof <- bpc_open ZPair ex_env toy_digest 9 ex_rand s' p coms' (zq 2, zq 10);
  do ok <- bpc_verify ZPair ex_env1 toy_digest 9 ex_rand v com (zq 2, zq 10) (zq e) proof;
  Ok (feqb com com', ok).
Example C119_example : ex119 173 = Ok (true, true) /\ ex119 174 = Ok (true, false).
Proof. vm_compute. split; reflexivity. Qed.
Example C119_hypotheses : fits_in (P := ZPair) 4 2 [zl [3; 4]; zl [5; 6]]%Z /\ fits_in (P := ZPair) 8 3 [zl [3; 4]; zl [5; 6]]%Z.
Proof. split; (split; [cbn; lia|]); repeat (apply Forall_cons; [split; [lia|right; split; [cbn; lia|vm_compute; congruence]]|]); constructor. Qed.
Example C119_example_transparent :
  tbpc_commit ZPair ex_env ex_rand ex_rand (firstn 2 (zl [3; 1; 4]), firstn 2 (zl [2; 7; 1; 8]))%Z [zl [3; 4]; zl [5; 6]]%Z =
    Ok (zq 72, zl [13; 21]%Z) /\
  tbpc_commit ZPair ex_env ex_rand ex_rand (zl [3; 1; 4], zl [2; 7; 1; 8])%Z [zl [3; 4]; zl [5; 6]]%Z = Ok (zq 72, zl [13; 21; 0; 0]%Z).
Proof. vm_compute. split; reflexivity. Qed.

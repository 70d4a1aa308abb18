(** Property C68: the Groth16 aggregation example and benchmark program. *)
Require Import List Arith NArith ZArith Lia Bool Field.
Import ListNotations.
Require Import Verif.Outcome Verif.Algebra Verif.Zp Verif.Rust Verif.InnerProducts Verif.Commitments
  Verif.Poly Verif.Gipa Verif.Tipa Verif.Ssm Verif.Groth16 Verif.Batch Verif.Bench Verif.GrothMain
  Verif.Spec Verif.ListFacts Verif.RustFacts Verif.InnerProductFacts Verif.CommitFacts Verif.GipaFacts Verif.PolyFacts Verif.KeyFacts Verif.TipaFacts Verif.SsmFacts
  Verif.Groth16Facts Verif.PropsBase Verif.PropsGipa Verif.PropsTipa Verif.PropsSsm Verif.PropsGroth Verif.PropsBatch.

(** ** Specification of the dependency: Groth16 is complete.  [inputs c] are the public inputs of a
    circuit, [sat c] says that it is satisfied, [like c0 c] that it has the shape of the circuit
    that was set up ([like c0 c0]: the constraints of c0 can be generated). *)
Definition snark_complete {R P C} (S : snark R P C) (inputs : C -> list (pK P)) (sat : C -> Prop) (like : C -> C -> Prop) : Prop :=
  forall c0 rng, like c0 c0 -> exists pk rng', sn_setup S c0 rng = Ok (pk, rng') /\
    length (inputs c0) + 1 = length (vk_gamma_abc_g1 (sn_vk S pk)) /\
    forall c rng1, like c0 c -> sat c ->
      length (inputs c) = length (inputs c0) /\
      exists pf rng2, sn_prove S pk c rng1 = Ok (pf, rng2) /\ g16_valid (sn_vk S pk) (inputs c) pf.

(** the example's circuit: the sum of the public inputs and the witness is the last public input *)
Definition test_inputs {P} (c : test_circuit P) : list (pK P) := tc_inputs c ++ [tc_sum c].
Definition test_sat {P} (c : test_circuit P) : Prop :=
  tc_sum c = tc_witness c +f fold_right fadd f0 (tc_inputs c).
Definition test_like {P} (c0 c : test_circuit P) : Prop := length (tc_inputs c0) = length (tc_inputs c).

(** no scalar challenge is 0 or 1 *)
Definition good_challenges (K : field) (D : bytes -> bytes) (fuel : nat) : Prop :=
  forall x (r : K), rand_challenge D fuel 0 x = Ok r -> r <> f0 /\ r <> f1.

Lemma index_at {A} (l : list A) i x : nth_error l i = Some x -> index l i = Ok x.
Proof. unfold index. now intros ->. Qed.

Section GrothMain.
  Context {R : Type} {P : pairing}.
  Notation K := (pK P).
  Add Field KfGM : (f_theory (pK P)).
  Variables (E : penv) (D : bytes -> bytes) (fuel : nat).
  Variables (rs : sampler R (pK P)) (r1 : sampler R (pG1 P)) (r2 : sampler R (pG2 P)).

  Lemma g16_setup_ok rng n : 0 < n -> exists s rng' ka kb v, g16_setup P rs rng n = Ok (s, rng') /\
    get_commitment_keys s = (ka, kb) /\ get_verifier_key s = Ok v.
  Proof.
    intros Hn. edestruct (C21_setup_succeeds (identity (R := R) (pGT P)) rs rng n tt) as [s Hs]; [exact Hn|reflexivity|].
    destruct (C21_setup_structure _ _ _ _ _ _ _ Hs) as [_ Hst].
    destruct (C21_keys s _ _ _ Hn Hst) as [[ka [kb [E1 _]]] Ev].
    unfold g16_setup. rewrite Hs. cbn [rbind]. exists s. eauto 10.
  Qed.

  (** whatever the keys and the proofs: an aggregate is only made for 2, 4, 8, ... proofs *)
  Theorem C68_aggregate_sizes s pfs p : g16_aggregate (R := R) P E D fuel r1 r2 s pfs = Ok p ->
    exists k, length pfs = 2 ^ S k.
  Proof.
    unfold g16_aggregate. destruct (get_commitment_keys s) as [ck1 ck2]. intros H.
    apply rbind_ok in H as [ca [_ H]]. apply rbind_ok in H as [cb [_ H]]. apply rbind_ok in H as [cc [_ H]].
    apply rbind_ok in H as [r [_ H]]. apply rbind_ok in H as [rv [Hrv H]].
    rewrite structured_scalar_power_spec in Hrv. injection Hrv as <-.
    apply rbind_ok in H as [ab [_ H]]. apply rbind_ok in H as [c [Hc H]].
    apply rbind_ok in H as [ckr [_ H]]. apply rbind_ok in H as [ca' [_ H]]. apply rbind_ok in H as [u [_ H]].
    apply rbind_ok in H as [p1 [H1 _]].
    unfold tipa_prove_with_srs_shift in H1. apply rbind_ok in H1 as [[gp aux] [Hg H1]].
    unfold gipa_prove_with_aux in Hg. apply rbind_ok in Hg as [u' [Hp Hg]].
    destruct (is_power_of_two _) eqn:Ep; [|discriminate]. clear Hp u'. apply is_power_of_two_spec in Ep as [k Hk].
    set (a_r := zipw _ _ _) in *.
    assert (Hlen : length pfs = 0 \/ length a_r = length pfs).
    { destruct (length pfs) as [|n] eqn:El; [now left|right]. unfold a_r. rewrite zipw_length, map_length, map_length, seq_length, El. lia. }
    destruct Hlen as [Hlen|Hlen].
    { destruct pfs; [|discriminate]. unfold a_r in Hk. cbn in Hk. pose proof (pow2_pos k). lia. }
    destruct k as [|k]; [|exists k; congruence]. exfalso.
    rewrite Hk in Hg. cbn [Nat.pow] in Hg. cbn [gipa_prove_loop] in Hg. rewrite Hk in Hg. cbn [Nat.pow Nat.eqb] in Hg.
    destruct a_r as [|x a_r]; [discriminate|].
    apply rbind_ok in Hg as [[[[mb ckb] st] tr] [Hl Hg]]. injection Hg as <- <-.
    apply rbind_ok in Hl as [? [_ Hl]]. apply rbind_ok in Hl as [? [_ Hl]]. apply rbind_ok in Hl as [? [_ Hl]].
    apply rbind_ok in Hl as [? [_ Hl]]. injection Hl as <- <- <- <-.
    cbn [ga_ck_base ga_transcript rev] in H1. cbn [invert_all rmapM rbind hd_error runwrap] in H1.
    apply rbind_ok in H1 as [? [_ H1]]. discriminate.
  Qed.

  Lemma ok_unwrap_ok {A} (x : res A) a : ok_unwrap x = Ok a -> x = Ok a.
  Proof. destruct x; cbn; congruence. Qed.

  (** ** Both programs only reach their end for 2, 4, 8, ... proofs, whatever the SNARKs do *)
  Theorem C68_example_sizes (TS : snark R P (test_circuit P)) m n rng :
    g16_example_main P E D fuel rs r1 r2 TS m n rng = Ok tt -> exists k, n = 2 ^ S k.
  Proof.
    intros H. unfold g16_example_main in H. apply rbind_ok in H as [[pk g1] [_ H]]. apply rbind_ok in H as [[s g2] [_ H]].
    apply rbind_ok in H as [[[pfs sts] g3] [Hl H]]. apply rbind_ok in H as [p [Ha _]]. apply ok_unwrap_ok, C68_aggregate_sizes in Ha as [k Hk].
    exists k. rewrite <- Hk. clear Hk p. revert pfs sts g2 g3 Hl. induction n as [|n IH]; intros pfs sts g2 g3 Hl; cbn [example_proofs] in Hl.
    - injection Hl as <- _ _. reflexivity.
    - apply rbind_ok in Hl as [[[pf st] g4] [_ Hl]]. apply rbind_ok in Hl as [[[pfs' sts'] g5] [Hl' Hl]]. injection Hl as <- _ _.
      cbn [length]. f_equal. eapply IH; eauto.
  Qed.

  Theorem C68_bench_sizes (HI HO : Type) rand_hash_input hash default_input default_output to_fe (R0 : Type)
      (seed_from_u64 : N -> R0) rand_u128 Q SS SM SA pack trials n rec all mono rng :
    1 <= trials ->
    g16_bench_main P E D fuel rs r1 r2 HI HO rand_hash_input hash default_input default_output to_fe
      seed_from_u64 rand_u128 Q SS SM SA pack trials n rec all mono rng = Ok tt ->
    exists k, n = 2 ^ S k.
  Proof.
    intros Ht H. unfold g16_bench_main in H.
    assert (Li : length (fst (random_generators rand_hash_input rng n)) = n) by (now rewrite random_generators_draws, map_length, seq_length).
    destruct (random_generators rand_hash_input rng n) as [ins g0]. cbn [fst] in Li.
    apply rbind_ok in H as [[pk g1] [_ H]]. apply rbind_ok in H as [[pfs g2] [Hp H]]. apply rbind_ok in H as [[[pfs' ins'] outs'] [Hc H]].
    assert (Hl : length pfs' = n).
    { unfold bench_copies in Hc. destruct all.
      - injection Hc as <- <- <-. rewrite <- Li. clear Li H. revert pfs g1 g2 Hp. induction ins as [|i ins IH]; intros pfs g1 g2 Hp; cbn [map combine bench_proofs] in Hp.
        + injection Hp as <- _. reflexivity.
        + apply rbind_ok in Hp as [[pf g3] [_ Hp]]. apply rbind_ok in Hp as [[l g4] [Hp' Hp]]. injection Hp as <- _. cbn [length]. f_equal. eapply IH; eauto.
      - apply rbind_ok in Hc as [pf [_ Hc]]. apply rbind_ok in Hc as [i [_ Hc]]. apply rbind_ok in Hc as [o [_ Hc]]. injection Hc as <- _ _. apply repeat_length. }
    apply rbind_ok in H as [b [_ H]]. apply rbind_ok in H as [b' [_ H]]. apply rbind_ok in H as [u [_ H]]. apply rbind_ok in H as [[s g3] [_ H]].
    apply rbind_ok in H as [v [_ H]]. apply rbind_ok in H as [u' [Ha _]].
    destruct trials as [|t]; [lia|]. cbn [bench_aggregate] in Ha. apply rbind_ok in Ha as [p [Ha _]].
    apply ok_unwrap_ok, C68_aggregate_sizes in Ha as [k Hk]. exists k. congruence.
  Qed.

  (** ** Completeness of both programs *)
  Section Complete.
    Hypothesis HE : 1 <= threads E.
    Hypothesis HD : digest16 D.
    Hypothesis HL0 : draws_end K D fuel.
    Hypothesis HL1 : rounds_end (mod_carrier (pGT P)) (mod_carrier (pGT P)) (identity_output (pGT P)) D fuel.
    Hypothesis HL2 : rounds_end (mod_carrier (pGT P)) (mod_carrier (fmod K)) (identity_output (pG1 P)) D fuel.
    Hypothesis HC : good_challenges K D fuel.

    Lemma aggregate_ok rng rng' k s v vk inputs pfs :
      g16_setup P rs rng (2 ^ S k) = Ok (s, rng') -> get_verifier_key s = Ok v ->
      length pfs = 2 ^ S k -> rows_fit vk inputs -> Forall2 (g16_valid vk) inputs pfs ->
      exists proof, g16_aggregate (R := R) P E D fuel r1 r2 s pfs = Ok proof /\
        g16_verify (R := R) P E D fuel r1 r2 v vk inputs proof = Ok true.
    Proof using HE HD HL0 HL1 HL2 HC.
      intros Hs Hv Hn Hfit HV. destruct (get_commitment_keys s) as [ka kb] eqn:Hk.
      destruct (draws_end_live _ _ _ HL0 (mser (pairing_sum P (map pf_a pfs) ka) ++ mser (pairing_sum P kb (map pf_b pfs)) ++ mser (pairing_sum P (map pf_c pfs) ka))) as [r Hr].
      destruct (HC _ _ Hr) as [H0 H1].
      eapply (C41_groth16_complete_live E E D fuel rs r1 r2 HE HE HD rng rng' k s ka kb v Hs Hk Hv pfs Hn r); auto.
    Qed.

    (** *** The example *)
    Variable TS : snark R P (test_circuit P).
    Hypothesis HTS : snark_complete TS test_inputs test_sat test_like.

    Lemma fold_left_right (l : list K) : fold_left fadd l f0 = fold_right fadd f0 l.
    Proof using.
      cut (forall x, fold_left fadd l x = x +f fold_right fadd f0 l); [intros ->; ring|].
      induction l as [|y l IH]; intros x; cbn; [ring|]. rewrite IH. ring.
    Qed.

    Lemma random_generators_length {A} (f : sampler R A) n : forall rng, length (fst (random_generators f rng n)) = n.
    Proof using. intros rng. now rewrite random_generators_draws, map_length, seq_length. Qed.

    Theorem C68_example_complete m k rng : g16_example_main P E D fuel rs r1 r2 TS m (2 ^ S k) rng = Ok tt.
    Proof using HE HD HL0 HL1 HL2 HC HTS.
      unfold g16_example_main. destruct (HTS (mk_test_circuit (repeat f0 m) f0 f0) rng eq_refl) as (pk & rng1 & -> & Habc & Hpr). cbn [ok_unwrap rbind].
      unfold test_inputs in Habc. cbn [tc_inputs tc_sum] in Habc. rewrite app_length, repeat_length in Habc. cbn [length] in Habc.
      destruct (g16_setup_ok rng1 (2 ^ S k) (pow2_pos _)) as (s & rng2 & ka & kb & v & Hs & Hk & Hv). rewrite Hs. cbn [ok_unwrap rbind].
      assert (Hloop : forall n g, exists pfs sts g', example_proofs P rs TS pk m n g = Ok (pfs, sts, g') /\ length pfs = n /\
        Forall (fun row => length row + 1 = length (vk_gamma_abc_g1 (sn_vk TS pk))) sts /\ Forall2 (g16_valid (sn_vk TS pk)) sts pfs).
      { induction n as [|n IH]; intros g; [exists [], [], g; repeat split; constructor|].
        cbn [example_proofs]. unfold example_one. pose proof (random_generators_length rs m g) as Lx.
        destruct (random_generators rs g m) as [xs g1]. cbn [fst] in Lx. destruct (rs g1) as [w g2].
        set (c := mk_test_circuit xs w (w +f fold_left fadd xs f0)).
        destruct (Hpr c g2) as (Hlen & pf & g3 & -> & Hval).
        { unfold test_like. cbn. now rewrite repeat_length. }
        { unfold test_sat. cbn. now rewrite fold_left_right. }
        cbn [ok_unwrap rbind]. destruct (IH g3) as (pfs & sts & g' & -> & Hl & HF & HV). cbn [rbind].
        exists (pf :: pfs), ((xs ++ [w +f fold_left fadd xs f0]) :: sts), g'. split; [reflexivity|]. split; [cbn; lia|].
        split; constructor; auto. rewrite app_length. cbn. lia. }
      destruct (Hloop (2 ^ S k) rng2) as (pfs & sts & g' & -> & Hl & HF & HV). cbn [rbind].
      assert (Hfit : rows_fit (sn_vk TS pk) sts).
      { split; [|exact HF]. intros ->. inversion HV; subst. cbn [length] in Hl. pose proof (pow2_pos (S k)). lia. }
      destruct (aggregate_ok _ _ _ _ _ _ _ _ Hs Hv Hl Hfit HV) as [proof [-> Hver]]. cbn [ok_unwrap rbind]. rewrite Hv. cbn [rbind].
      rewrite Hver. reflexivity.
    Qed.

    (** *** The benchmark *)
    Variables (HI HO : Type) (rand_hash_input : sampler R HI) (hash : HI -> HO).
    Variables (default_input : HI) (default_output : HO) (to_fe : HO -> list K).
    Context {R0 : Type}.
    Variables (seed_from_u64 : N -> R0) (rand_u128 : sampler R0 N).
    Variable Q : pairing.
    Variable SS : snark R P (HI * HO).
    Variable SM : snark R P (list HI * list HO).
    Variable SA : snark R Q (list HO * list (g16_proof P) * g16_vk P).
    Variable pack : list HO -> list (pK Q).
    (** what the three circuits claim: bench.rs 36-50, 58-75, 84-156 *)
    Definition single_sat (c : HI * HO) : Prop := snd c = hash (fst c).
    Definition many_sat (c : list HI * list HO) : Prop := Forall2 (fun i o => o = hash i) (fst c) (snd c).
    Definition rec_sat (c : list HO * list (g16_proof P) * g16_vk P) : Prop :=
      let '(outs, proofs, vk) := c in Forall2 (fun o pf => g16_valid vk (to_fe o) pf) outs proofs.
    Hypothesis HSS : snark_complete SS (fun c => to_fe (snd c)) single_sat (fun _ _ => True).
    (** the monolithic circuit is set up with its own values; the verification circuit too, with as many hashes as proofs
        and a key for the number of public inputs (else its assertions fail) *)
    Definition many_like (c0 c : list HI * list HO) : Prop := c0 = c /\ length (fst c) = length (snd c).
    Definition rec_like (c0 c : list HO * list (g16_proof P) * g16_vk P) : Prop :=
      c0 = c /\ let '(outs, proofs, vk) := c in length outs = length proofs /\
        Forall (fun o => length (to_fe o) + 1 = length (vk_gamma_abc_g1 vk)) outs.
    Hypothesis HSM : snark_complete SM (fun c => flat_map to_fe (snd c)) many_sat many_like.
    Hypothesis HSA : snark_complete SA (fun c => pack (fst (fst c))) rec_sat rec_like.

    Notation bench := (g16_bench_main P E D fuel rs r1 r2 HI HO rand_hash_input hash default_input default_output to_fe
      seed_from_u64 rand_u128 Q SS SM SA pack).

    Lemma verify_one_valid (Q' : pairing) (vk : g16_vk Q') inputs pf : length inputs + 1 = length (vk_gamma_abc_g1 vk) ->
      g16_valid vk inputs pf -> g16_verify_one Q' vk inputs pf = Ok true.
    Proof using.
      clear HE. intros Hl Hv. unfold g16_verify_one. rewrite Hl, Nat.eqb_refl. cbn [rassert rbind].
      rewrite batch_input_eq by (destruct (vk_gamma_abc_g1 vk); [cbn in Hl; lia|discriminate]). cbn [rbind]. f_equal. apply meqb_spec. exact Hv.
    Qed.

    Theorem C68_bench_complete trials k rec all mono rng : bench trials (2 ^ S k) rec all mono rng = Ok tt.
    Proof using HE HD HL0 HL1 HL2 HC HSS HSM HSA.
      unfold g16_bench_main. set (n := 2 ^ S k). assert (Hn : 0 < n) by apply pow2_pos.
      pose proof (random_generators_length rand_hash_input n rng) as Li. destruct (random_generators rand_hash_input rng n) as [ins g0]. cbn [fst] in Li.
      destruct (HSS (default_input, default_output) g0 I) as (pk & g1 & -> & Habc & Hpr). cbn [ok_unwrap rbind].
      set (vk := sn_vk SS pk) in *. cbn [snd] in Habc.
      assert (Hpr' : forall i g, exists pf g', sn_prove SS pk (i, hash i) g = Ok (pf, g') /\ g16_valid vk (to_fe (hash i)) pf /\
        length (to_fe (hash i)) + 1 = length (vk_gamma_abc_g1 vk)).
      { intros i g. destruct (Hpr (i, hash i) g I eq_refl) as (Hl & pf & g' & H1 & H2). cbn [snd] in *. exists pf, g'. rewrite Hl. auto. }
      (* the loop, and the copies *)
      assert (Hloop : exists proofs g2 proofs' ins' outs', bench_proofs P HI HO SS pk all (combine ins (map hash ins)) g1 = Ok (proofs, g2) /\
        bench_copies P HI HO all n proofs ins (map hash ins) = Ok (proofs', ins', outs') /\
        length proofs' = n /\ Forall2 (fun i o => o = hash i) ins' outs' /\
        Forall (fun row => length row + 1 = length (vk_gamma_abc_g1 vk)) (map to_fe outs') /\
        Forall2 (fun o pf => g16_valid vk (to_fe o) pf) outs' proofs').
      { unfold bench_copies. destruct all.
        - assert (H : forall l g, exists pfs g', bench_proofs P HI HO SS pk true (combine l (map hash l)) g = Ok (pfs, g') /\ length pfs = length l /\
            Forall2 (fun o pf => g16_valid vk (to_fe o) pf) (map hash l) pfs).
          { induction l as [|i l IH]; intros g; [exists [], g; repeat split; constructor|]. cbn [map combine bench_proofs].
            destruct (Hpr' i g) as (pf & g' & -> & Hv & _). cbn [ok_unwrap rbind]. destruct (IH g') as (pfs & g'' & -> & Hl & HF). cbn [rbind].
            exists (pf :: pfs), g''. repeat split; [cbn; lia|]. constructor; auto. }
          destruct (H ins g1) as (pfs & g2 & H1 & H2 & H3). exists pfs, g2, pfs, ins, (map hash ins). repeat split; auto; [congruence| |].
          + clear. induction ins; cbn; constructor; auto.
          + apply Forall_forall. intros row Hrow. apply in_map_iff in Hrow as [o [<- Ho]]. apply in_map_iff in Ho as [i [<- _]].
            destruct (Hpr' i g1) as (_ & _ & _ & _ & Hx). exact Hx.
        - clearbody n. destruct ins as [|i ins]; [cbn [length] in Li; lia|]. cbn [map combine bench_proofs].
          destruct (Hpr' i g1) as (pf & g' & -> & Hv & Hx). cbn [ok_unwrap rbind]. cbn [index nth_error runwrap rbind].
          exists [pf], g', (repeat pf n), (repeat i n), (repeat (hash i) n). repeat split.
          + apply repeat_length.
          + clear. induction n; cbn; constructor; auto.
          + apply Forall_forall. intros row Hrow. apply in_map_iff in Hrow as [o [<- Ho]]. apply repeat_spec in Ho. now subst o.
          + clear - Hv. induction n; cbn; constructor; auto. }
      destruct Hloop as (proofs & g2 & pfs & ins' & outs & -> & Hcp & Hl & Hio & HF & HV). cbn [rbind]. rewrite Hcp. cbn [rbind].
      assert (HV' : Forall2 (g16_valid vk) (map to_fe outs) pfs).
      { clear - HV. induction HV; cbn; constructor; auto. }
      assert (Hne : vk_gamma_abc_g1 vk <> []) by (destruct (vk_gamma_abc_g1 vk); [cbn in Habc; lia|discriminate]).
      rewrite (C62_batch_complete seed_from_u64 rand_u128 vk _ _ Hne HV'). cbn [rbind runwrap rassert].
      destruct (g16_setup_ok g2 n Hn) as (s & g3 & ka & kb & v & Hs & Hk & Hv). rewrite Hs. cbn [ok_unwrap rbind]. rewrite Hv. cbn [rbind].
      assert (Hfit : rows_fit vk (map to_fe outs)).
      { split; [|exact HF]. intros E0. rewrite E0 in HV'. inversion HV'; subst. cbn [length] in Hl. lia. }
      assert (Hagg : bench_aggregate P E D fuel r1 r2 trials s v vk (map to_fe outs) pfs = Ok tt).
      { induction trials as [|t IH]; [reflexivity|]. cbn [bench_aggregate].
        destruct (aggregate_ok _ _ _ _ _ _ _ _ Hs Hv Hl Hfit HV') as [proof [-> Hver]]. cbn [ok_unwrap rbind]. rewrite Hver. cbn [ok_unwrap rbind rassert].
        exact IH. }
      rewrite Hagg. cbn [rbind].
      assert (Hrec : exists g4, (if rec then do (pka, rng0) <- ok_unwrap (sn_setup SA (outs, pfs, vk) g3);
                 bench_recursive P HO Q SA trials pka (outs, pfs, vk) (pack outs) rng0 else Ok g3) = Ok g4).
      { destruct rec; [|eauto]. assert (Hlk : rec_like (outs, pfs, vk) (outs, pfs, vk)).
        { split; [reflexivity|]. split; [exact (Forall2_len HV)|]. apply Forall_forall. intros o Ho.
          eapply Forall_forall in HF; [exact HF|]. now apply in_map. }
        destruct (HSA (outs, pfs, vk) g3 Hlk) as (pka & g4 & -> & Ha & Hp). cbn [ok_unwrap rbind]. cbn [fst] in Ha.
        clear Hagg. revert g4. induction trials as [|t IH]; intros g4; [cbn; eauto|]. cbn [bench_recursive].
        destruct (Hp (outs, pfs, vk) g4 Hlk HV) as (_ & pf & g5 & -> & Hvp). cbn [ok_unwrap rbind]. rewrite verify_one_valid by auto.
        cbn [rbind rassert]. apply IH. }
      destruct Hrec as [g4 ->]. cbn [rbind]. destruct mono; [|reflexivity].
      assert (Hlm : many_like (ins', outs) (ins', outs)) by (split; [reflexivity|exact (Forall2_len Hio)]).
      destruct (HSM (ins', outs) g4 Hlm) as (pkm & g5 & -> & Ha & Hp). cbn [ok_unwrap rbind]. cbn [snd] in Ha.
      destruct (Hp (ins', outs) g5 Hlm Hio) as (_ & pf & g6 & -> & Hvp). cbn [ok_unwrap rbind]. rewrite verify_one_valid by auto. reflexivity.
    Qed.
  End Complete.
End GrothMain.
Print Assumptions C68_aggregate_sizes.
Print Assumptions C68_example_sizes.
Print Assumptions C68_bench_sizes.
Print Assumptions C68_example_complete.
Print Assumptions C68_bench_complete.

(** ** A toy SNARK over the toy pairing, where discrete logarithms are known: complete for any circuits. *)
Section Toy.
  Context {C : Type}.
  Variables (inputs : C -> list zp).
  (** alpha, beta, gamma, delta = 2, 3, 5, 7 and bases 1, 2, 3, ... *)
  Definition toy_vk (n : nat) : g16_vk ZPair :=
    mk_g16_vk (P := ZPair) (zq 2) (zq 3) (zq 5) (zq 7) (map (fun i => zq (Z.of_nat i + 1)) (seq 0 (n + 1))).
  Definition toy_prove (vk : g16_vk ZPair) (row : list zp) : g16_proof ZPair :=
    let ic := match batch_input ZPair (vk_gamma_abc_g1 vk) row with Ok x => x | _ => zq 0 end in
    mk_g16_proof (P := ZPair) (zp_add (zp_add (zp_mul (zq 2) (zq 3)) (zp_mul ic (zq 5))) (zp_mul (zq 4) (zq 7))) (zq 1) (zq 4).
  Definition toy_snark : snark Z ZPair C :=
    mk_snark (P := ZPair) (g16_vk ZPair) (fun vk => vk) (fun c z => Ok (toy_vk (length (inputs c)), z)) (fun vk c z => Ok (toy_prove vk (inputs c), z)).
  Lemma toy_snark_complete sat (like : C -> C -> Prop) : (forall c0 c, like c0 c -> length (inputs c) = length (inputs c0)) ->
    snark_complete (P := ZPair) toy_snark inputs sat like.
  Proof.
    intros Hl c0 z _. exists (toy_vk (length (inputs c0))), z. split; [reflexivity|]. split.
    { cbn. now rewrite map_length, seq_length. }
    intros c z1 Hc _. split; [now apply Hl|]. eexists _, z1. split; [reflexivity|].
    unfold toy_prove. cbn [sn_vk toy_snark]. rewrite batch_input_eq by (cbn; rewrite Nat.add_1_r; discriminate).
    unfold g16_valid. cbn [pf_a pf_b pf_c vk_alpha_g1 vk_beta_g2 vk_gamma_g2 vk_delta_g2 toy_vk]. 
    change (zp_mul (zp_add (zp_add (zp_mul (zq 2) (zq 3)) (zp_mul (input_comb (toy_vk (length (inputs c0))) (inputs c)) (zq 5))) (zp_mul (zq 4) (zq 7))) (zq 1) =
      zp_add (zp_add (zp_mul (zq 2) (zq 3)) (zp_mul (input_comb (toy_vk (length (inputs c0))) (inputs c)) (zq 5))) (zp_mul (zq 4) (zq 7))).
    rewrite (Rmul_comm (F_R zp_field_theory)). apply (Rmul_1_l (F_R zp_field_theory)).
  Qed.
End Toy.

Definition ex_hash (i : zp) : list zp := [zp_add i (zq 1); zp_mul i i].
Definition ex_g16_example n : res unit :=
  g16_example_main ZPair ex_env toy_digest 9 ex_scalars ex_scalars ex_scalars (toy_snark (test_inputs (P := ZPair))) 3 n 2%Z.
Definition ex_g16_bench trials n rec all mono : res unit :=
  g16_bench_main ZPair ex_env toy_digest 9 ex_scalars ex_scalars ex_scalars zp (list zp) ex_scalars ex_hash (zq 0) [zq 0; zq 0] (fun o => o)
    ex_seed ex_u128 ZPair (toy_snark (fun c => snd c)) (toy_snark (fun c => flat_map (fun o => o) (snd c))) (toy_snark (fun c => concat (fst (fst c))))
    (@concat zp) trials n rec all mono 2%Z.
(** two and four proofs, with and without the options; one, three and no proofs *)
Example C68_example : ex_g16_example 2 = Ok tt /\ ex_g16_example 4 = Ok tt /\ ex_g16_example 1 = Panic /\ ex_g16_example 3 = Panic.
Proof. vm_compute. repeat split; reflexivity. Qed.
Example C68_example_bench : ex_g16_bench 2 2 true true true = Ok tt /\ ex_g16_bench 1 4 true false true = Ok tt /\
  ex_g16_bench 1 0 true true true = Panic /\ ex_g16_bench 1 1 true true true = Panic.
Proof. vm_compute. repeat split; reflexivity. Qed.
(** all hypotheses of the completeness theorems at once, with a digest for which no challenge is 0 or 1 *)
Definition two_digest (b : bytes) : bytes := repeat 2%N 16.
Example C68_hypotheses : digest16 two_digest /\ draws_end ZP two_digest 1 /\
  rounds_end (mod_carrier ZM) (mod_carrier ZM) (identity_output ZM) two_digest 1 /\
  rounds_end (mod_carrier ZM) (mod_carrier (fmod ZP)) (identity_output ZM) two_digest 1 /\
  good_challenges ZP two_digest 1 /\
  snark_complete (P := ZPair) (toy_snark (test_inputs (P := ZPair))) test_inputs test_sat test_like.
Proof.
  split; [intros x; reflexivity|].
  split; [intros x; exists 0; eexists; split; [lia|vm_compute; reflexivity]|].
  split; [intros x c1 c2; exists 0; eexists; split; [lia|vm_compute; reflexivity]|].
  split; [intros x c1 c2; exists 0; eexists; split; [lia|vm_compute; reflexivity]|].
  split; [|apply toy_snark_complete; intros c0 c H; unfold test_like, test_inputs in *; rewrite !app_length; cbn in *; lia].
  intros x r H. assert (Hz : zp_val r = zp_val (match f_rand (f := ZP) (two_digest []) with Some r => r | None => zq 0 end)).
  { unfold rand_challenge in H. change (two_digest (usize_be 0 ++ x)) with (two_digest []) in H.
    destruct (f_rand (f := ZP) (two_digest [])) as [y|]; [injection H as <-; reflexivity|discriminate]. }
  split; intros ->; revert Hz; vm_compute; discriminate.
Qed.

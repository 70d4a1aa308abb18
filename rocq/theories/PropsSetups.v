(** C115: what every setup function draws from the generator, and what it makes of it. *)
Require Import List Arith NArith ZArith Lia Bool.
Import ListNotations.
Require Import Verif.Outcome Verif.Algebra Verif.Zp Verif.Rust Verif.InnerProducts Verif.Commitments
  Verif.Gipa Verif.Poly Verif.Tipa Verif.Ssm Verif.Floats Verif.PolyCommit Verif.Transparent Verif.Groth16 Verif.Spec
  Verif.ListFacts Verif.RustFacts Verif.PolyFacts Verif.PropsBase Verif.PropsGipa Verif.PropsTipa Verif.PropsSsm Verif.PropsPoly.

(** the [n] samples drawn from state [rng], in order *)
Definition drawn {R A} (s : sampler R A) (rng : R) (n : nat) (l : list A) : Prop :=
  length l = n /\ forall i, i < n -> nth_error l i = Some (fst (s (nth_state s rng i))).
(** the first [n] multiples of [g] by the powers of [x] *)
Definition powers_of {K : field} {G : module K} (x : K) (g : G) (n : nat) (l : list G) : Prop :=
  length l = n /\ forall i, i < n -> nth_error l i = Some (fpow x i *m g).

Lemma powers_of_map {K : field} {G : module K} (x : K) (g : G) n : powers_of x g n (map (fun i => fpow x i *m g) (seq 0 n)).
Proof.
  split; [now rewrite map_length, seq_length|]. intros i Hi. apply (map_nth_error (fun i => fpow x i *m g) i (seq 0 n)).
  rewrite (nth_error_nth' _ 0) by (now rewrite seq_length). now rewrite seq_nth.
Qed.
Lemma generators_powers {K : field} {G : module K} n (g : G) (x : K) : 0 < n ->
  exists l, structured_generators_scalar_power n g x = Ok l /\ powers_of x g n l.
Proof. intros H. rewrite structured_generators_ok by auto. eexists. split; [reflexivity|apply powers_of_map]. Qed.
Lemma samples_drawn {R A} (s : sampler R A) rng n r : setup_samples r s rng n -> exists l, r = Ok (l, nth_state s rng n) /\ drawn s rng n l.
Proof. intros (l & H1 & H2 & H3). exists l. split; [exact H1|]. split; assumption. Qed.

Section C115.
  Context {R : Type} {P : pairing}.
  Notation K := (pK P).
  Variable E : penv.
  Variable rand : sampler R K.
  Variables (rand_g1 : sampler R (pG1 P)) (rand_g2 : sampler R (pG2 P)).
  (** the two scalars drawn first, alpha and then beta *)
  Notation alpha rng := (fst (rand rng)).
  Notation beta rng := (fst (rand (nth_state rand rng 1))).

  Theorem C115_kzg (rng : R) d : exists powers,
    kzg_setup rand rng d = Ok (powers, mk_vsrs (pr_g P) (pr_h P) (beta rng *m pr_g P) (alpha rng *m pr_h P), nth_state rand rng 2) /\
    powers_of (alpha rng) (pr_g P) (d + 1) powers.
  Proof using.
    unfold kzg_setup. cbn [nth_state]. destruct (rand rng) as [a r1]. cbn [fst snd]. destruct (rand r1) as [b r2]. cbn [fst snd].
    destruct (generators_powers (d + 1) (pr_g P) a ltac:(lia)) as (l & -> & Hl). exists l. split; [reflexivity|exact Hl].
  Qed.

  Theorem C115_tipa {MT KT : module K} {OT} (IPC : dhc R MT KT OT) (rng : R) n : setup_total IPC -> 0 < n ->
    exists ga hb kt rng', tipa_setup IPC rand rng n = Ok (mk_srs ga hb (beta rng *m pr_g P) (alpha rng *m pr_h P), kt, rng') /\
      powers_of (alpha rng) (pr_g P) (2 * n - 1) ga /\ powers_of (beta rng) (pr_h P) (2 * n - 1) hb /\
      dh_setup IPC (nth_state rand rng 2) 1 = Ok ([kt], rng').
  Proof using.
    intros Ht Hn. destruct (Ht (nth_state rand rng 2) 1) as (kts & rng' & Hk & Hl). destruct kts as [|kt [|? ?]]; try discriminate.
    unfold tipa_setup. cbn [nth_state] in *. destruct (rand rng) as [a r1]. cbn [fst snd] in *. destruct (rand r1) as [b r2]. cbn [fst snd] in *.
    destruct (Nat.ltb_spec 0 n); [|lia]. cbn [rassert rbind].
    destruct (generators_powers (2 * n - 1) (pr_g P) a ltac:(lia)) as (ga & -> & Hga).
    destruct (generators_powers (2 * n - 1) (pr_h P) b ltac:(lia)) as (hb & -> & Hhb). cbn [rbind]. rewrite Hk. cbn [rbind last_opt runwrap].
    exists ga, hb, kt, rng'. auto.
  Qed.

  Theorem C115_groth16 (rng : R) n : 0 < n -> exists ga hb,
    g16_setup P rand rng n = Ok (mk_srs ga hb (beta rng *m pr_g P) (alpha rng *m pr_h P), nth_state rand rng 2) /\
    powers_of (alpha rng) (pr_g P) (2 * n - 1) ga /\ powers_of (beta rng) (pr_h P) (2 * n - 1) hb.
  Proof using.
    intros Hn. destruct (C115_tipa (identity (R := R) (pGT P)) rng n) as (ga & hb & kt & rng' & H & H1 & H2 & H3); [|exact Hn|].
    - intros r m. destruct (C08_identity R K (pGT P) r m) as (k & Hk & Hl). eauto.
    - exists ga, hb. unfold g16_setup. rewrite H. cbn [rbind]. apply Ok_inj in H3. injection H3 as _ <-. auto.
  Qed.

  (** GIPA with structured scalars: the keys for the left vector, then the key for the product. *)
  Theorem C115_ssm {MA MT KA KT : module K} {OA OT} (LMC : dhc R MA KA OA) (IPC : dhc R MT KT OT) (rng : R) n :
    setup_total LMC -> setup_total IPC ->
    exists ka kt rng1 rng2, gssm_setup LMC IPC rng n = Ok (ka, kt, rng2) /\ length ka = n /\
      dh_setup LMC rng n = Ok (ka, rng1) /\ dh_setup IPC rng1 1 = Ok ([kt], rng2).
  Proof using.
    intros H1 H2. destruct (H1 rng n) as (ka & rng1 & E1 & L1). destruct (H2 rng1 1) as (kts & rng2 & E2 & L2).
    destruct kts as [|kt [|? ?]]; try discriminate. exists ka, kt, rng1, rng2. unfold gssm_setup. rewrite E1. cbn [rbind]. rewrite E2. auto.
  Qed.

  Theorem C115_bivariate (rng : R) xd yd : exists hb powers,
    bpc_setup P rand rng xd yd = Ok (mk_srs [pr_g P] hb (beta rng *m pr_g P) (alpha rng *m pr_h P), powers, nth_state rand rng 2) /\
    powers_of (beta rng) (pr_h P) (2 * xd + 1) hb /\ powers_of (alpha rng) (pr_g P) (yd + 1) powers.
  Proof using.
    unfold bpc_setup. cbn [nth_state]. destruct (rand rng) as [a r1]. cbn [fst snd]. destruct (rand r1) as [b r2]. cbn [fst snd].
    destruct (generators_powers (yd + 1) (pr_g P) a ltac:(lia)) as (l & -> & Hl). cbn [rbind].
    destruct (generators_powers (2 * xd + 1) (pr_h P) b ltac:(lia)) as (hb & -> & Hhb). cbn [rbind]. exists hb, l. auto.
  Qed.

  (** For a degree [d]: the sides of the square [s * s] that is cut into [2^i] rows of [2^j] coefficients (C37). *)
  Theorem C115_univariate (rng : R) d : 1 <= d -> (Z.of_nat d < 2 ^ 52)%Z -> exists i j hb powers,
    upc_setup P rand rng d = Ok (mk_srs [pr_g P] hb (beta rng *m pr_g P) (alpha rng *m pr_h P), powers, nth_state rand rng 2) /\
    powers_of (beta rng) (pr_h P) (2 * 2 ^ i - 1) hb /\ powers_of (alpha rng) (pr_g P) (2 ^ j) powers /\
    1 <= i /\ d + 1 <= 2 ^ i * 2 ^ j.
  Proof using.
    intros Hd Hlt. destruct (C37_degrees_partial 32 16 d (or_introl eq_refl) Hd Hlt) as (s & x & y & Hb & _ & (i & Hi & Hx) & (j & Hy) & Hs & Hc & _).
    unfold upc_setup. rewrite Hb. cbn [rbind]. destruct (C115_bivariate rng x y) as (hb & powers & -> & H1 & H2).
    exists i, j, hb, powers. split; [reflexivity|]. rewrite <- Hx, <- Hy. replace (2 * (x + 1) - 1) with (2 * x + 1) by lia. split; [exact H1|]. split; [exact H2|]. split; [exact Hi|]. nia.
  Qed.

  Theorem C115_transparent (rng : R) xd yd : exists ck1 ck2,
    let rng1 := nth_state rand_g1 rng (yd + 1) in
    tbpc_setup P E rand_g1 rand_g2 rng xd yd = Ok (ck1, ck2, nth_state rand_g2 rng1 (xd + 1)) /\
    drawn rand_g1 rng (yd + 1) ck1 /\ drawn rand_g2 rng1 (xd + 1) ck2.
  Proof using.
    destruct (samples_drawn _ _ _ _ (C08_pedersen R K (pG1 P) rand_g1 rng (yd + 1))) as (ck1 & H1 & D1).
    destruct (samples_drawn _ _ _ _ (C08_afgho_g1 R P E rand_g2 (nth_state rand_g1 rng (yd + 1)) (xd + 1))) as (ck2 & H2 & D2).
    exists ck1, ck2. cbv zeta. unfold tbpc_setup.
    assert (G1 : gssm_setup (pedersen (pG1 P) rand_g1) (identity (R := R) (fmod K)) rng (yd + 1) = Ok (ck1, tt, nth_state rand_g1 rng (yd + 1)))
      by (unfold gssm_setup; rewrite H1; reflexivity).
    assert (G2 : gssm_setup (afgho_g1 P E rand_g2) (identity (R := R) (pG1 P)) (nth_state rand_g1 rng (yd + 1)) (xd + 1)
                 = Ok (ck2, tt, nth_state rand_g2 (nth_state rand_g1 rng (yd + 1)) (xd + 1)))
      by (unfold gssm_setup; rewrite H2; reflexivity).
    rewrite G1. cbn [rbind]. rewrite G2. auto.
  Qed.
  Theorem C115_transparent_univariate (rng : R) d : 1 <= d -> (Z.of_nat d < 2 ^ 52)%Z -> exists i j ck1 ck2,
    let rng1 := nth_state rand_g1 rng (2 ^ j) in
    tupc_setup P E rand_g1 rand_g2 rng d = Ok (ck1, ck2, nth_state rand_g2 rng1 (2 ^ i)) /\
    drawn rand_g1 rng (2 ^ j) ck1 /\ drawn rand_g2 rng1 (2 ^ i) ck2 /\ 1 <= i /\ d + 1 <= 2 ^ i * 2 ^ j.
  Proof using.
    intros Hd Hlt. destruct (C37_degrees_partial 8 4 d (or_intror eq_refl) Hd Hlt) as (s & x & y & Hb & _ & (i & Hi & Hx) & (j & Hy) & Hs & Hc & _).
    unfold tupc_setup. rewrite Hb. cbn [rbind]. destruct (C115_transparent rng x y) as (ck1 & ck2 & H1 & H2 & H3).
    exists i, j, ck1, ck2. cbv zeta. rewrite <- Hx, <- Hy. split; [exact H1|]. split; [exact H2|]. split; [exact H3|]. split; [exact Hi|]. nia.
  Qed.
End C115.
Print Assumptions C115_kzg.
Print Assumptions C115_tipa.
Print Assumptions C115_groth16.
Print Assumptions C115_ssm.
Print Assumptions C115_bivariate.
Print Assumptions C115_univariate.
Print Assumptions C115_transparent.
Print Assumptions C115_transparent_univariate.

(** [ex_rand] returns the state and adds one to it. *)
Example C115_example_ssm : gssm_setup (pedersen ZM ex_rand) (pedersen ZM ex_rand) 5%Z 3 = Ok (zl [5; 6; 7]%Z, zq 8, 9%Z).
Proof. vm_compute. reflexivity. Qed.
Example C115_example_transparent : tupc_setup ZPair ex_env ex_rand ex_rand 5%Z 3 = Ok (zl [5; 6]%Z, zl [7; 8]%Z, 9%Z).
Proof. vm_compute. reflexivity. Qed.
Example C115_example_kzg : exists v, kzg_setup (P := ZPair) ex_rand 5%Z 2 = Ok (zl [1; 5; 25]%Z, v, 7%Z).
Proof. eexists. reflexivity. Qed.

(** Property C107 for structured scalar messages: the bounds of C102 and C105 in numbers. *)
Require Import List Arith NArith ZArith Lia Bool.
Import ListNotations.
Require Import Verif.Outcome Verif.Algebra Verif.Rust Verif.InnerProducts Verif.Commitments
  Verif.Gipa Verif.Poly Verif.Tipa Verif.Ssm Verif.Spec Verif.ListFacts Verif.RustFacts Verif.InnerProductFacts Verif.CommitFacts Verif.RootFacts
  Verif.GipaFacts Verif.GipaComplete Verif.TipaFacts Verif.SsmFacts Verif.SerFacts Verif.CircuitFacts Verif.ZpBig Verif.Pocklington Verif.PrimeFields
  Verif.PropsBase Verif.PropsGipa Verif.PropsTipa Verif.Algebraic Verif.PropsAlgebraic Verif.PropsSearches Verif.Oracle Verif.OracleValues Verif.Rounds
  Verif.PropsGipaOracle Verif.PropsSsmOracle Verif.PropsTipaOracle Verif.PropsTipaRounds Verif.PropsLevel Verif.PropsVerify.

(** GIPA with a structured scalar message: a share of at most (2 Q + 2) Q / 2^128 *)
Theorem C107_gipa_ssm {R} {K : field} {MA MT KA XA : module K} (fA : KA -> MA -> XA) (th : MA -> fmod K -> MT)
    (LMC : dhc R MA KA (mod_carrier XA)) (ip : list MA -> list (fmod K) -> res MT) p k bits len :
  lin_commit LMC mid fA -> lin_ip ip th -> ark_field K p k bits -> k <= len ->
  forall fuel E ka kt ca (ct : list MT) b a out,
  length a = length ka -> dh_commit LMC ka a = Ok ca -> ip a (powers (length ka) b) <> Ok (at_ ct 0) ->
  forall ask know, knows_openings1 LMC (MT := MT) ka ask know ->
  prefix_free (@fser K) -> prefix_free (@mser K XA) -> prefix_free (@mser K MT) ->
  forall Q L, NoDup L ->
  (forall w, In w L -> length w = Q /\ incl w (byte_strings len) /\
     ssm_fools LMC fuel ka ct a ask know out (fun D w => gssm_verify LMC (identity MT) ip D fuel E (ka, kt) (ca, ct) b (out w) = Ok true) w) ->
  (N.of_nat (length L) * 2 ^ 128 <= N.of_nat ((2 * Q + 2) * Q) * N.of_nat (length (byte_strings len)) ^ N.of_nat Q)%N.
Proof.
  intros LA LI HK Hlen fuel E ka kt ca ct b a out Ha Ea Hf ask know Hkn FF FA FT Q L NL HL.
  destruct (C107_spread K p k bits len HK Hlen) as [Hc _]. destruct HK as [[Hk _] _ _ _ _].
  apply (level_arith _ (256 ^ (len - 16)) _ 128).
  - rewrite byte_strings_length, !of_nat_pow. change (2 ^ N.of_nat 128)%N with (256 ^ 16)%N. change (N.of_nat 256) with 256%N.
    rewrite <- N.pow_add_r. f_equal. lia.
  - exact (C102_gipa_ssm fA th LMC ip LA LI fuel E ka kt ca ct b a out Ha Ea Hf ask know Hkn _ _ (byte_strings_nodup len) Hc FF FA FT Q L NL HL).
Qed.
Print Assumptions C107_gipa_ssm.

(** TIPA with a structured scalar message: as for TIPA, ((3 Q + 3 log2 n) / 2^128 + (2 N - 2) / 2^bits) Q *)
Theorem C107_tipa_ssm {R} {P : pairing} {MA MT XA : module (pK P)} (fA : pG2 P -> MA -> XA) (th : MA -> fmod (pK P) -> MT)
    (LMC : dhc R MA (pG2 P) (mod_carrier XA)) (ip : list MA -> list (fmod (pK P)) -> res MT) p k bits len :
  lin_commit LMC mid fA -> lin_ip ip th -> pr_h P <> m0 -> ark_field (pK P) p k bits -> k <= len ->
  forall fuel E (rand : sampler R (pK P)) rng n s kt0 rng' ka kb v,
  tipa_setup (identity MT) rand rng n = Ok (s, kt0, rng') -> get_commitment_keys s = (ka, kb) -> get_verifier_key s = Ok v ->
  forall kt ca (ct : list MT) b a, length a = n -> dh_commit LMC ka a = Ok ca -> ip a (powers n b) <> Ok (at_ ct 0) ->
  forall ask know keys out opening, knows_openings1 LMC (MT := MT) ka ask know -> knows_keys1 s ask keys out opening ->
  prefix_free (@fser (pK P)) -> prefix_free (@mser _ XA) -> prefix_free (@mser _ MT) -> prefix_free (@mser _ (pG2 P)) ->
  forall N Q L, n <= N -> NoDup L ->
  (forall w, In w L -> length w = Q /\ incl w (byte_strings len) /\
     tssm_fools_any LMC ip fuel E (fst (rand rng)) (fst (rand (snd (rand rng)))) n N ka kt ca ct b a ask know keys out opening v w) ->
  (N.of_nat (length L) * 2 ^ N.of_nat bits <=
     (2 ^ N.of_nat (bits - 128) * N.of_nat (3 * Q + 3 * Nat.log2 n) + N.of_nat (2 * N - 2)) * N.of_nat Q * N.of_nat (length (byte_strings len)) ^ N.of_nat Q)%N.
Proof.
  intros LA LI Hh HK Hlen fuel E rand rng n s kt0 rng' ka kb v Hset Hkeys Hv kt ca ct b a Ha Ea Hf ask know keys out opening Hkn Hkk
    FF FA FT F2 N Q L HN NL HL.
  destruct (C107_spread (pK P) p k bits len HK Hlen) as [Hc Hp]. destruct HK as [[Hk Hbk] Hsz _ _ _].
  assert (Hbits : 128 <= bits).
  { destruct (le_lt_dec 128 bits) as [H|H]; [exact H|]. exfalso. assert (2 ^ N.of_nat bits < 2 ^ 128)%N by (apply N.pow_lt_mono_r; lia). lia. }
  apply (level_arith2 _ (256 ^ (len - 16)) (2 ^ (8 * k - bits) * 256 ^ (len - k))); [exact Hbits| | |].
  - rewrite byte_strings_length, !of_nat_pow. change (2 ^ 128)%N with (256 ^ 16)%N. change (N.of_nat 256) with 256%N.
    rewrite <- N.pow_add_r. f_equal. lia.
  - rewrite byte_strings_length, Nat2N.inj_mul, !of_nat_pow. change (N.of_nat 2) with 2%N. change (N.of_nat 256) with 256%N.
    rewrite N.mul_comm, N.mul_assoc, <- N.pow_add_r. change 256%N with (2 ^ 8)%N. rewrite <- !N.pow_mul_r, <- N.pow_add_r. f_equal. lia.
  - exact (C105_tipa_ssm fA th LMC ip LA LI Hh fuel E rand rng n s kt0 rng' ka kb v Hset Hkeys Hv kt ca ct b a Ha Ea Hf ask know keys out opening Hkn Hkk
      _ _ _ (byte_strings_nodup len) Hc Hp FF FA FT F2 N Q L HN NL HL).
Qed.
Print Assumptions C107_tipa_ssm.

(** the instance of the polynomial commitments and of Groth16 aggregation, over BLS12-381 and BLS12-377 *)
Theorem C107_bls_ssm R (P : pairing) (E : penv) (r2 : sampler R (pG2 P)) len :
  pK P = Fr381 \/ pK P = Fr377 -> 32 <= len -> 1 <= threads E -> pr_h P <> m0 ->
  forall fuel (rand : sampler R (pK P)) rng n s kt0 rng' ka kb v,
  tipa_setup (identity (pG1 P)) rand rng n = Ok (s, kt0, rng') -> get_commitment_keys s = (ka, kb) -> get_verifier_key s = Ok v ->
  forall kt ca (ct : list (pG1 P)) b a, length a = n -> dh_commit (afgho_g1 P E r2) ka a = Ok ca -> multiexp_ip (pG1 P) a (powers n b) <> Ok (at_ ct 0) ->
  forall ask know keys out opening, knows_openings1 (afgho_g1 P E r2) (MT := pG1 P) ka ask know -> knows_keys1 s ask keys out opening ->
  prefix_free (@mser _ (pGT P)) -> prefix_free (@mser _ (pG1 P)) -> prefix_free (@mser _ (pG2 P)) ->
  forall N Q L, n <= N -> (N.of_nat N <= 2 ^ 40)%N -> (N.of_nat Q <= 2 ^ 40)%N -> NoDup L ->
  (forall w, In w L -> length w = Q /\ incl w (byte_strings len) /\
     tssm_fools_any (afgho_g1 P E r2) (multiexp_ip (pG1 P)) fuel E (fst (rand rng)) (fst (rand (snd (rand rng)))) n N ka kt ca ct b a ask know keys out opening v w) ->
  (N.of_nat (length L) * 2 ^ 45 <= N.of_nat (length (byte_strings len)) ^ N.of_nat Q)%N.
Proof.
  intros HP Hlen HE Hh.
  assert (HK : exists p bits, 128 <= bits /\ ark_field (pK P) p 32 bits /\ prefix_free (@fser (pK P))).
  { destruct HP as [-> | ->].
    - exists (Z.to_N r381), 255. split; [lia|exact C107_bls12_381].
    - exists (Z.to_N r377), 253. split; [lia|exact C107_bls12_377]. }
  destruct HK as (p & bits & Hb & HK & FF).
  intros fuel rand rng n s kt0 rng' ka kb v Hset Hkeys Hv kt ca ct b a Ha Ea Hf ask know keys out opening Hkn Hkk FA FT F2 N Q L HN HN40 HQ40 NL HL.
  apply (level45 _ _ bits Q n N Hb HN HQ40 HN40).
  exact (C107_tipa_ssm _ _ (afgho_g1 P E r2) (multiexp_ip (pG1 P)) p 32 bits len (afgho_g1_law P E HE r2) (multiexp_ip_law _) Hh HK Hlen
    fuel E rand rng n s kt0 rng' ka kb v Hset Hkeys Hv kt ca ct b a Ha Ea Hf ask know keys out opening Hkn Hkk FF FA FT F2 N Q L HN NL HL).
Qed.
Print Assumptions C107_bls_ssm.

(** ** Example over the scalar field of BLS12-381: the vector (2, 3) and the powers of 4, whose inner product is 14, and the claim 15 *)
Definition ex107_s1 : com3 (mod_carrier M381) (mod_carrier (fmod Fr381)) (identity_output M381) := (fq 3, fq 0, [fq 2]).
Definition ex107_s2 : com3 (mod_carrier M381) (mod_carrier (fmod Fr381)) (identity_output M381) := (fq 18, fq 0, [fq 8]).
Definition ex107_ask1 (w : list bytes) : bytes :=
  match w with [] => gipa_hash_input 0 (f0 : Fr381) ex107_s1 ex107_s2 | _ => point_input1 (P := P381) 0 (f1 : Fr381) (fq 10) end.
Definition ex107_know1 (w : list bytes) : list M381 * list M381 := (fl [3; 0]%Z, fl [0; 2]%Z).
Definition ex107_keys1 (w : list bytes) : comb P381 := ex107_key.
Definition ex107_opening1 (w : list bytes) : comb P381 := ex107_quot.
Definition ex107_out1 (w : list bytes) : tssm_proof P381 M381 (mod_carrier M381) (identity_output M381) :=
  mk_tssm_proof (P := P381) (mk_gipa_proof (K := Fr381) (MA := M381) (MB := fmod Fr381) [(ex107_s1, ex107_s2)] (fq 5, fq 5)) (fq 10) (fq (3 + ex107_z)).
Example C107_example_fools_ssm :
  tssm_fools_any (P := P381) (afgho_g1 P381 ex_env1 ex107_rand) (multiexp_ip (pG1 P381)) 5 ex_env1 (fq 2) (fq 3) 2 2
    (fl [1; 9]%Z) tt (fq 29) [fq 15] (fq 4) (fl [2; 3]%Z) ex107_ask1 ex107_know1 ex107_keys1 ex107_out1 ex107_opening1 ex107_vsrs ex107_w.
Proof.
  exists (fun _ => ex107_digest). split; [intros q; cbn; lia|].
  split; [intros [|[|t]] Ht; [reflexivity|reflexivity|cbn in Ht; lia]|].
  split; [repeat constructor|]. split; [cbn; lia|]. split; [reflexivity|]. split; [|split].
  - intros q [Hq|(cs & Hc & n & Hn & Hno & ->)].
    + exists 0. split; [cbn; lia|].
      inversion Hq as [prev s steps n Hn Hno|prev s steps n v q' Hn Hv Hq']; subst.
      * destruct n as [|n]; [reflexivity|]. specialize (Hno 0 ltac:(lia)). discriminate.
      * inversion Hq'.
    + exists 1. split; [cbn; lia|]. destruct n as [|n]; [|specialize (Hno 0 ltac:(lia)); discriminate].
      assert (Hc' : round_challenges (K := Fr381) (fun _ => ex107_digest) 5 (f0 : Fr381) (rev (gp_steps (ts_gipa (ex107_out1 ex107_w)))) [fq 1]).
      { cbn [round_challenges rev app gp_steps ts_gipa ex107_out1]. split; [|exact I]. exists 0, (fq 1). split; [lia|]. split; [|reflexivity].
        split; [reflexivity|intros i Hi; lia]. }
      assert (cs = [fq 1]) as ->; [|reflexivity].
      eapply round_challenges_fun; [|exact Hc'|exact Hc]. intros q. cbn. lia.
  - unfold collision_found_any1.
    match goal with |- context [match ?x with _ => _ end] => assert (E : x = Some (fl [5; 5]%Z, fl [5; 5]%Z)) by reflexivity end.
    rewrite E. intros [H _]. now apply H.
  - unfold relation_found1. match goal with |- context [match ?x with _ => _ end] => assert (E : x = None) by reflexivity end. rewrite E. auto.
Qed.
Example C107_example_hypotheses_ssm :
  pr_h P381 <> m0 /\ pK P381 = Fr381 /\
  tipa_setup (P := P381) (identity M381) ex107_rand 2%Z 2 = Ok (ex107_s, tt, 4%Z) /\ get_commitment_keys ex107_s = (fl [1; 9]%Z, fl [1; 4]%Z) /\
  get_verifier_key ex107_s = Ok ex107_vsrs /\ dh_commit (afgho_g1 P381 ex_env1 ex107_rand) (fl [1; 9]%Z) (fl [2; 3]%Z) = Ok (fq 29) /\
  multiexp_ip (pG1 P381) (fl [2; 3]%Z) (powers (K := Fr381) 2 (fq 4)) <> Ok (fq 15) /\
  knows_openings1 (afgho_g1 P381 ex_env1 ex107_rand) (MT := M381) (fl [1; 9]%Z) ex107_ask1 ex107_know1 /\
  knows_keys1 (P := P381) (MA := M381) (MT := M381) (XA := M381) ex107_s ex107_ask1 ex107_keys1 ex107_out1 ex107_opening1.
Proof.
  assert (F : prefix_free (@fser Fr381)) by apply C107_bls12_381.
  assert (G : prefix_free (@mser Fr381 M381)) by exact F.
  assert (Hne : fq 1 <> fq 0) by (intros E; apply (f_equal (zm_val r381)) in E; discriminate E).
  assert (Hlen : forall n p (s : com3 (mod_carrier M381) (mod_carrier (fmod Fr381)) (identity_output M381) * com3 (mod_carrier M381) (mod_carrier (fmod Fr381)) (identity_output M381)) m c ck,
    ok_round s -> gipa_hash_input n (p : Fr381) (fst s) (snd s) <> point_input1 (P := P381) m c ck).
  { intros n p s m c ck [H1 H2] E. apply (f_equal (@length N)) in E. destruct s as [[[a1 b1] t1] [[a2 b2] t2]]. unfold point_input1, gipa_hash_input in E. cbn [fst snd] in E.
    assert (Hl : forall a : Fr381, length (fser a) = 32) by (intros a; apply le_bytes_length).
    rewrite !app_length, !usize_be_length in E.
    change (@mser (pK P381) (pG2 P381)) with (@fser Fr381) in E.
    change (@cser Fr381 (mod_carrier M381)) with (@fser Fr381) in E. rewrite !Hl in E. lia. }
  split; [exact Hne|]. do 5 (split; [reflexivity|]). split.
  { assert (E : multiexp_ip (pG1 P381) (fl [2; 3]%Z) (powers (K := Fr381) 2 (fq 4)) = Ok (fq 14)) by reflexivity. rewrite E. intros H.
    assert (E' : fq 14 = fq 15) by congruence. apply (f_equal (zm_val r381)) in E'. discriminate E'. }
  split; [|split].
  - intros w n p s Hs E. destruct w as [|d w]; [|exfalso; exact (Hlen _ _ _ _ _ _ Hs (eq_sym E))]. symmetry in E.
    apply (pay_inj (XA := M381) (XB := fmod Fr381) (MT := M381) n 0 p f0 s (ex107_s1, ex107_s2) F G F G Hs) in E as [_ ->]; [|split; reflexivity].
    repeat split; reflexivity.
  - intros w m c ck E. destruct w as [|d w]; [exfalso; refine (Hlen 0 f0 (ex107_s1, ex107_s2) _ _ _ _ E); split; reflexivity|].
    apply (point_input1_inj (P := P381)) in E as [_ <-]; [reflexivity|exact F|exact G].
  - reflexivity.
Qed.

(** Property C120: the parts a TIPA proof has more than a GIPA proof are computed from public data.

    [tipa_of_gipa] and [tssm_of_gssm] are programs of this development, not of the repository: they get the reference string,
    the commitments and a GIPA proof, and call the functions that the verifiers (and, for the openings, the provers) call. *)
Require Import List Arith NArith ZArith Lia Bool Field.
Import ListNotations.
Require Import Verif.Outcome Verif.Algebra Verif.Zp Verif.Rust Verif.InnerProducts Verif.Commitments
  Verif.Gipa Verif.Poly Verif.Tipa Verif.Ssm Verif.Spec Verif.ListFacts
  Verif.RustFacts Verif.InnerProductFacts Verif.CommitFacts Verif.GipaFacts Verif.GipaTop
  Verif.PolyFacts Verif.KeyFacts Verif.TipaFacts Verif.SsmFacts
  Verif.PropsBase Verif.PropsGipa Verif.PropsSsm Verif.PropsTipa Verif.PropsVerify.

Section Programs.
  Context {P : pairing}.
  Notation K := (pK P).
  Variables (D : bytes -> bytes) (fuel : nat).

  Definition tipa_of_gipa {MA MB : module (pK P)} {OA OB OT : carrier (pK P)} (s : srs P) (com : com3 OA OB OT)
      (gp : gipa_proof MA MB OA OB OT) (r : K) : res (tipa_proof P MA MB OA OB OT) :=
    let '(ka, kb) := get_commitment_keys s in
    do (_, t) <- gipa_recursive_challenges D fuel com gp;
    do (cka, ckb) <- gipa_final_keys (shift_vec (finv r) ka) kb t;
    do t_inv <- invert_all t;
    do r_inv <- runwrap (finverse r);
    do t0 <- runwrap (hd_error t);
    do c <- rand_challenge D fuel 0 (tipa_kzg_payload t0 cka ckb);
    do oa <- prove_ck_kzg_opening (h_beta_powers s) t_inv r_inv c;
    do ob <- prove_ck_kzg_opening (g_alpha_powers s) t f1 c;
    Ok (mk_tipa_proof gp (cka, ckb) (oa, ob)).

  Definition tssm_of_gssm {MA : module (pK P)} {OA OT : carrier (pK P)} (s : srs P) (com : OA * OT)
      (gp : gssm_proof MA OA OT) : res (tssm_proof P MA OA OT) :=
    let ka := fst (get_commitment_keys s) in
    do (_, t) <- gipa_recursive_challenges D fuel (fst com, (f0 : mod_carrier (fmod K)), snd com) gp;
    do (cka, _) <- gipa_final_keys ka (repeat (tt : unitmod K) (length ka)) t;
    do t_inv <- invert_all t;
    do t0 <- runwrap (hd_error t);
    do c <- rand_challenge D fuel 0 (tssm_kzg_payload t0 cka);
    do oa <- prove_ck_kzg_opening (h_beta_powers s) t_inv f1 c;
    Ok (mk_tssm_proof gp cka oa).
End Programs.

Lemma hd_rev_last {A} (l : list A) d : l <> [] -> hd_error (rev l) = Some (last l d).
Proof.
  intros H. destruct (exists_last H) as [l' [x ->]]. rewrite rev_unit, last_last. reflexivity.
Qed.

Section C120.
  Context {R : Type} {P : pairing}.
  Notation K := (pK P).
  Add Field KfC120 : (f_theory (pK P)).
  Variables (D : bytes -> bytes) (fuel : nat) (HD : digest16 D).

  Lemma srs_lists (s : srs P) alpha beta n : srs_ok s alpha beta n ->
    h_beta_powers s = map (fun i => fpow beta i *m pr_h P) (seq 0 (2 * n - 1)) /\
    g_alpha_powers s = map (fun i => fpow alpha i *m pr_g P) (seq 0 (2 * n - 1)).
  Proof using. clear HD. intros H. apply srs_ok_iff in H. subst s. split; reflexivity. Qed.

  Section Tipa.
    Context {MA MB MT KT : module (pK P)} {OA OB OT : carrier (pK P)}.
    Variables (LMC : dhc R MA (pG2 P) OA) (RMC : dhc R MB (pG1 P) OB) (IPC : dhc R MT KT OT) (ip : list MA -> list MB -> res MT).

    (** Every proof that GIPA accepts for the (shifted) keys of a reference string is completed, without the committed vectors,
        to a proof that TIPA accepts; the only other outcome is that the search for the challenge does not end. *)
    Theorem C120_tipa (s : srs P) alpha beta n ka kb r kt com (gp : gipa_proof MA MB OA OB OT) :
      srs_ok s alpha beta n -> get_commitment_keys s = (ka, kb) -> r <> f0 -> 2 <= n ->
      gipa_verify LMC RMC IPC ip D fuel (shift_vec (finv r) ka, kb, kt) com gp = Ok true ->
      tipa_of_gipa D fuel s com gp r = Loop \/
      exists proof, tipa_of_gipa D fuel s com gp r = Ok proof /\ tp_gipa proof = gp /\
        tipa_verify_with_srs_shift LMC RMC IPC ip D fuel (key_of alpha beta) kt com proof r = Ok true.
    Proof using HD.
      intros Hs Hk Hr Hn2 Hv. pose proof Hv as Hv0.
      apply gipa_verify_api in Hv as [cs [v [Hch [La [Lb _]]]]]; [|exact HD].
      assert (Hn : length kb = n).
      { destruct (C21_keys s alpha beta n ltac:(lia) Hs) as [[ka' [kb' [Ek [_ [Lb' _]]]]] _]. rewrite Hk in Ek. injection Ek as <- <-. exact Lb'. }
      pose proof (proj1 (round_challenges_chain D fuel HD _ _ _) Hch) as Hc.
      pose proof (chain_length _ _ _ _ _ Hc) as Hcl. rewrite rev_length in Hcl.
      pose proof (chain_nonzero _ _ _ _ _ Hc) as Hnz.
      assert (Hn' : n = 2 ^ length cs) by congruence.
      destruct (folded_keys_eval (P := P) s alpha beta ka kb r n cs) as [_ [_ [_ [Ea Eb]]]]; auto; [lia|].
      assert (Hne : cs <> []) by (intros ->; cbn in Hn'; lia).
      assert (Hnzr : Forall (fun c => c <> f0) (rev cs)) by now apply Forall_rev.
      assert (Hnzi : Forall (fun c => c <> f0) (map finv (rev cs))).
      { apply Forall_map. eapply Forall_impl; [|exact Hnzr]. cbn. intros c H. now apply finv_neq0. }
      destruct (srs_lists s alpha beta n Hs) as [Hh Hg].
      unfold tipa_of_gipa. rewrite Hk. rewrite (recursive_challenges_chain D fuel com gp cs Hc). cbn [rbind].
      rewrite final_keys_ok; [|rewrite rev_length; congruence|eapply pow2_nonempty; rewrite Lb; reflexivity|exact Hnzr]. cbn [rbind].
      rewrite !dot_subs by (rewrite ?map_length, rev_length; congruence).
      replace (big (length (shift_vec (finv r) ka)) (fun i => subset_prod (map finv (rev cs)) i *m at_ (shift_vec (finv r) ka) i))
        with (folded_key (shift_vec (finv r) ka) (map finv cs)) by (unfold folded_key; now rewrite map_rev).
      fold (folded_key kb cs).
      set (fa := folded_key (shift_vec (finv r) ka) (map finv cs)) in *. set (fb := folded_key kb cs) in *.
      rewrite invert_all_ok by exact Hnzr. cbn [rbind]. rewrite finverse_neq by exact Hr. cbn [runwrap rbind].
      rewrite (hd_rev_last cs f0) by exact Hne. cbn [runwrap rbind].
      destruct (rand_challenge (K := K) D fuel 0 (tipa_kzg_payload (last cs f0) fa fb)) as [z| | |] eqn:Ez; cbn [rbind];
        try (exfalso; destruct (C20_rand_first_decodable K D fuel (tipa_kzg_payload (last cs f0) fa fb)) as [[? [? [_ [_ H]]]]|[_ H]]; congruence);
        [|now left].
      right.
      destruct (opening_g2_complete alpha beta (2 * n - 1) (map finv (rev cs)) (finv r) z) as [oa [Ho1 Ho2]]; auto.
      { now apply finv_neq0. } { rewrite map_length, rev_length. lia. }
      destruct (opening_g1_complete alpha beta (2 * n - 1) (rev cs) f1 z) as [ob [Hp1 Hp2]]; auto using f1_neq_f0.
      { rewrite rev_length. lia. }
      rewrite Hh, Hg, Ho1. cbn [rbind]. rewrite Hp1. cbn [rbind]. eexists. split; [reflexivity|]. split; [reflexivity|].
      apply (C56_right_keys_complete D fuel HD LMC RMC IPC ip s alpha beta ka kb r n kt com _ cs z); cbn [tp_gipa tp_final_ck fst snd]; auto.
      - congruence.
      - apply drawn_iff. exact Ez.
      - unfold ck_openings_hold. cbn [tp_final_ck tp_final_ck_proof fst snd]. rewrite Ea, Eb.
        split.
        + apply (C25_g2_check alpha beta). rewrite product_form_spec in Ho2. exact Ho2.
        + apply (C25_g1_check alpha beta). rewrite product_form_spec in Hp2. exact Hp2.
    Qed.

    (** TIPA::prove_with_srs_shift is the prover of GIPA followed by that program, for every outcome. *)
    Theorem C120_tipa_prove (s : srs P) k ka kb r kt a b com :
      get_commitment_keys s = (ka, kb) -> length ka = 2 ^ k -> length kb = 2 ^ k -> length a = 2 ^ k -> length b = 2 ^ k ->
      tipa_prove_with_srs_shift LMC RMC IPC ip D fuel s (a, b) (shift_vec (finv r) ka, kb, kt) r =
      do (gp, _) <- gipa_prove_with_aux LMC RMC IPC ip D fuel (a, b) (shift_vec (finv r) ka, kb, [kt]);
      tipa_of_gipa D fuel s com gp r.
    Proof using.
      clear HD. intros Hk La Lb Ha Hb. unfold tipa_prove_with_srs_shift.
      destruct (gipa_prove_with_aux LMC RMC IPC ip D fuel (a, b) (shift_vec (finv r) ka, kb, [kt])) as [[gp aux]| | |] eqn:Ep; try reflexivity.
      cbn [rbind]. unfold tipa_of_gipa. rewrite Hk.
      assert (Ls : length (shift_vec (finv r) ka) = 2 ^ k) by (unfold shift_vec; rewrite map_length, seq_length; auto).
      destruct (C13_same_challenges D fuel LMC RMC IPC ip k a b _ kb [kt] gp aux Ha Hb Ls Lb Ep com) as [com' [Hc _]].
      rewrite Hc. cbn [rbind]. destruct (C14_folded_keys D fuel LMC RMC IPC ip k a b _ kb [kt] gp aux Ha Hb Ls Lb Ep) as [_ [_ Hf]].
      rewrite Hf. cbn [rbind]. destruct (ga_ck_base aux) as [fa fb]. reflexivity.
    Qed.

    (** in terms of GIPA::prove, which also checks its arguments *)
    Theorem C120_prove_then_convert (s : srs P) k ka kb r kt a b t com gp :
      get_commitment_keys s = (ka, kb) -> length ka = 2 ^ k -> length kb = 2 ^ k -> length a = 2 ^ k -> length b = 2 ^ k ->
      gipa_prove LMC RMC IPC ip D fuel (a, b, t) (shift_vec (finv r) ka, kb, kt) com = Ok gp ->
      tipa_prove_with_srs_shift LMC RMC IPC ip D fuel s (a, b) (shift_vec (finv r) ka, kb, kt) r = tipa_of_gipa D fuel s com gp r.
    Proof using.
      clear HD. intros Hk La Lb Ha Hb H. rewrite (C120_tipa_prove s k ka kb r kt a b com Hk La Lb Ha Hb).
      unfold gipa_prove in H. destruct com as [[ca cb] ct]. apply rbind_ok in H as [v [_ H]].
      destruct (negb (meqb v t)); [discriminate|]. destruct (negb (count_ones (length a) =? 1)); [discriminate|].
      apply rbind_ok in H as [ok [_ H]]. destruct (negb ok); [discriminate|]. apply rbind_ok in H as [[gp' aux] [Hp H]].
      injection H as <-. rewrite Hp. reflexivity.
    Qed.
  End Tipa.

  Section Ssm.
    Context {MA MT : module (pK P)} {XA : module (pK P)}.
    Variables (LMC : dhc R MA (pG2 P) (mod_carrier XA)) (ip : list MA -> list (fmod (pK P)) -> res MT) (E : penv).

    Theorem C120_tssm (s : srs P) alpha beta n kt ca ct b (gp : gssm_proof MA (mod_carrier XA) (identity_output MT)) :
      srs_ok s alpha beta n -> 2 <= n ->
      gssm_verify LMC (identity MT) ip D fuel E (fst (get_commitment_keys s), kt) (ca, ct) b gp = Ok true ->
      tssm_of_gssm D fuel s (ca, ct) gp = Loop \/
      exists proof, tssm_of_gssm D fuel s (ca, ct) gp = Ok proof /\ ts_gipa proof = gp /\
        tssm_verify LMC (identity MT) ip D fuel E (key_of alpha beta) kt (ca, ct) b proof = Ok true.
    Proof using HD.
      intros Hs Hn2 Hv. destruct (get_commitment_keys s) as [ka kb] eqn:Hk. cbn [fst] in Hv.
      apply (C55_gssm_accepts_iff D fuel E HD) in Hv as [cs [v [v' [Hch [La [Ga [_ [_ [Hv' [Hcm [_ Hv'e]]]]]]]]]]].
      assert (Hn : length ka = n).
      { destruct (C21_keys s alpha beta n ltac:(lia) Hs) as [[ka' [kb' [Ek [La' _]]]] _]. rewrite Hk in Ek. injection Ek as <- <-. exact La'. }
      pose proof (proj1 (round_challenges_chain D fuel HD _ _ _) Hch) as Hc.
      pose proof (chain_length _ _ _ _ _ Hc) as Hcl. rewrite rev_length in Hcl.
      pose proof (chain_nonzero _ _ _ _ _ Hc) as Hnz.
      assert (Hn' : n = 2 ^ length cs) by congruence.
      destruct (folded_keys_eval (P := P) s alpha beta ka kb f1 n cs) as [_ [_ [_ [Ea _]]]]; auto; [lia|].
      assert (Hf1 : finv (f1 : K) = f1) by apply finv_1.
      assert (Hsh : shift_vec (f1 : K) ka = ka).
      { unfold shift_vec. apply (nth_ext _ _ m0 m0); [now rewrite map_length, seq_length|]. rewrite map_length, seq_length. intros i Hi.
        change (nth i (map (fun i => fpow f1 i *m at_ ka i) (seq 0 (length ka))) m0) with (at_ (map (fun i => fpow f1 i *m at_ ka i) (seq 0 (length ka))) i).
        rewrite (at_map_seq (fun i => fpow f1 i *m at_ ka i)) by exact Hi. rewrite fpow_1_l. apply mscale_1. }
      rewrite Hf1, Hsh in Ea.
      assert (Hne : cs <> []) by (intros ->; cbn in Hn'; lia).
      assert (Hnzr : Forall (fun c => c <> f0) (rev cs)) by now apply Forall_rev.
      assert (Hnzi : Forall (fun c => c <> f0) (map finv (rev cs))).
      { apply Forall_map. eapply Forall_impl; [|exact Hnzr]. cbn. intros c H. now apply finv_neq0. }
      destruct (srs_lists s alpha beta n Hs) as [Hh _].
      unfold tssm_of_gssm. rewrite Hk. cbn [fst snd]. rewrite (recursive_challenges_chain D fuel _ gp cs Hc). cbn [rbind].
      rewrite final_keys_ok; [|rewrite rev_length; congruence| |exact Hnzr].
      2:{ eapply pow2_nonempty. rewrite repeat_length, Hn. exact Hn'. }
      cbn [rbind]. rewrite (dot_subs ka) by (rewrite map_length, rev_length; congruence).
      replace (big (length ka) (fun i => subset_prod (map finv (rev cs)) i *m at_ ka i))
        with (folded_key ka (map finv cs)) by (unfold folded_key; now rewrite map_rev).
      set (fa := folded_key ka (map finv cs)) in *.
      rewrite invert_all_ok by exact Hnzr. cbn [rbind].
      rewrite (hd_rev_last cs f0) by exact Hne. cbn [runwrap rbind].
      destruct (rand_challenge (K := K) D fuel 0 (tssm_kzg_payload (last cs f0) fa)) as [z| | |] eqn:Ez; cbn [rbind];
        try (exfalso; destruct (C20_rand_first_decodable K D fuel (tssm_kzg_payload (last cs f0) fa)) as [[? [? [_ [_ H]]]]|[_ H]]; congruence);
        [|now left].
      right.
      destruct (opening_g2_complete alpha beta (2 * n - 1) (map finv (rev cs)) f1 z) as [oa [Ho1 Ho2]]; auto using f1_neq_f0.
      { rewrite map_length, rev_length. lia. }
      rewrite Hh, Ho1. cbn [rbind]. eexists. split; [reflexivity|]. split; [reflexivity|].
      apply (C54_tssm_accepts_iff D fuel E HD). cbn [ts_gipa ts_final_ck ts_final_ck_proof]. exists cs, z, v'.
      split; [exact Hch|]. split; [exact Hne|]. split; [apply drawn_iff; exact Ez|]. split; [|auto].
      rewrite Ea. apply (C25_g2_check alpha beta). rewrite product_form_spec in Ho2. exact Ho2.
    Qed.

    Theorem C120_tssm_prove (s : srs P) k kt a b com :
      length (fst (get_commitment_keys s)) = 2 ^ k -> length a = 2 ^ k -> length b = 2 ^ k ->
      tssm_prove LMC (identity MT) ip D fuel s (a, b) (fst (get_commitment_keys s), kt) =
      do gp <- gssm_prove LMC (identity MT) ip D fuel (a, b) (fst (get_commitment_keys s), kt);
      tssm_of_gssm D fuel s com gp.
    Proof using.
      clear HD E. intros La Ha Hb. set (ka := fst (get_commitment_keys s)) in *. unfold tssm_prove, gssm_prove. cbn [snd].
      destruct (gipa_prove_with_aux LMC (ssm_placeholder K) (identity MT) ip D fuel (a, b) (ka, repeat (tt : unitmod K) (length b), [kt])) as [[gp aux]| | |] eqn:Ep; try reflexivity.
      cbn [rbind]. unfold tssm_of_gssm. fold ka.
      assert (Lr : length (repeat (tt : unitmod K) (length b)) = 2 ^ k) by now rewrite repeat_length.
      destruct (C13_same_challenges D fuel LMC (ssm_placeholder K) (identity MT) ip k a b ka _ [kt] gp aux Ha Hb La Lr Ep
        (fst com, (f0 : mod_carrier (fmod K)), snd com)) as [com' [Hc _]].
      rewrite Hc. cbn [rbind].
      destruct (C14_folded_keys D fuel LMC (ssm_placeholder K) (identity MT) ip k a b ka _ [kt] gp aux Ha Hb La Lr Ep) as [_ [_ Hf]].
      replace (length ka) with (length b) by congruence. rewrite Hf. cbn [rbind]. destruct (ga_ck_base aux) as [fa fb]. reflexivity.
    Qed.
  End Ssm.
End C120.
Print Assumptions C120_tipa.
Print Assumptions C120_tipa_prove.
Print Assumptions C120_prove_then_convert.
Print Assumptions C120_tssm.
Print Assumptions C120_tssm_prove.

(** A GIPA proof for the keys of a string of size 4, made and accepted by GIPA, is converted; TIPA accepts the result, for a shift 7
    and without one; changed base messages are converted too, and rejected. *)
Definition ex120 (r : zp) (f : zp * zp -> zp * zp) : res (bool * bool) :=
  do s <- ex_srs 4; do v <- get_verifier_key s;
  let '(ka, kb) := get_commitment_keys s in
  let ka' := shift_vec (K := ZP) (finv (f := ZP) r) ka in
  let com := (pairing_sum ZPair ex_a ka', pairing_sum ZPair kb ex_b, [pairing_sum ZPair ex_a ex_b])
             : com3 (mod_carrier ZM) (mod_carrier ZM) (identity_output ZM) in
  do gp <- gipa_prove (ex_L ex_env) (ex_R ex_env) ex_T (pairing_ip ZPair ex_env) toy_digest 9 (ex_a, ex_b, pairing_sum ZPair ex_a ex_b) (ka', kb, tt) com;
  let gp := mk_gipa_proof (gp_steps gp) (f (gp_base gp) : ZM * ZM) : gipa_proof ZM ZM (mod_carrier ZM) (mod_carrier ZM) (identity_output ZM) in
  do ok <- gipa_verify (ex_L ex_env1) (ex_R ex_env1) ex_T (pairing_ip ZPair ex_env1) toy_digest 9 (ka', kb, tt) com gp;
  do p <- tipa_of_gipa (P := ZPair) toy_digest 9 s com gp r;
  do ok' <- ex_tverify v tt com p r;
  Ok (ok, ok').
Example C120_example : ex120 (zq 7) (fun x => x) = Ok (true, true) /\ ex120 (zq 1) (fun x => x) = Ok (true, true) /\
  ex120 (zq 7) ex_bump1 = Ok (false, false).
Proof. vm_compute. repeat split; reflexivity. Qed.
Definition ex120s : res (bool * bool) :=
  do s <- ex_srs 4; do v <- get_verifier_key s;
  let ka := fst (get_commitment_keys s) in
  do mb <- structured_scalar_power (K := ZP) 4 (zq 5);
  let com := (pairing_sum ZPair ex_a ka : mod_carrier ZM,
     [big (K := ZP) (M := ZM) 4 (fun i => fpow (K := ZP) (zq 5) i *m at_ (K := ZP) ex_a i)] : identity_output ZM) in
  do gp <- ex_ssm_prove (ex_a, mb) (ka, tt);
  do ok <- ex_ssm_verify (ka, tt) com (zq 5) gp;
  do p <- tssm_of_gssm (P := ZPair) toy_digest 9 s com gp;
  do ok' <- tssm_verify (P := ZPair) (ex_L ex_env1) ex_T (multiexp_ip ZM) toy_digest 9 ex_env1 v tt com (zq 5) p;
  Ok (ok, ok').
Example C120_example_ssm : ex120s = Ok (true, true).
Proof. vm_compute. reflexivity. Qed.

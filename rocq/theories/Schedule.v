(** The arguments depend on the commitments and the inner product only through their results. *)
Require Import List Arith Bool NArith Lia.
Import ListNotations.
Require Import Verif.Outcome Verif.Algebra Verif.Rust Verif.RustFacts Verif.InnerProducts Verif.Commitments
  Verif.Poly Verif.Gipa Verif.Tipa Verif.Ssm.

Lemma rbind_ext {A B} (m m' : res A) (f g : A -> res B) : m = m' -> (forall a, f a = g a) -> rbind m f = rbind m' g.
Proof. intros -> H. destruct m'; cbn; auto. Qed.
Lemma rmapM_ext {A B} (f g : A -> res B) l : (forall a, f a = g a) -> rmapM f l = rmapM g l.
Proof. intros H. induction l as [|a l IH]; [reflexivity|]. cbn [rmapM]. rewrite H. apply rbind_ext; [reflexivity|]. intros b. now rewrite IH. Qed.

Definition same_commit {R} {K : field} {Msg Key : module K} {Out : carrier K} (C C' : dhc R Msg Key Out) : Prop :=
  forall k m, dh_commit C k m = dh_commit C' k m.
Definition same_ip {A B C : Type} (ip ip' : list A -> list B -> res C) : Prop := forall l r, ip l r = ip' l r.
Lemma same_commit_refl {R} {K : field} {Msg Key : module K} {Out : carrier K} (C : dhc R Msg Key Out) : same_commit C C.
Proof. intros k m. reflexivity. Qed.
Lemma same_ip_refl {A B C : Type} (ip : list A -> list B -> res C) : same_ip ip ip.
Proof. intros k m. reflexivity. Qed.

Ltac ext_step := first [reflexivity | apply rbind_ext; [try reflexivity|intros ?]
  | match goal with |- context [match ?x with (_, _) => _ end] => is_var x; destruct x end
  | match goal with |- (if ?b then _ else _) = _ => destruct b end].

Section Gipa.
  Context {R : Type} {K : field}.
  Context {MA MB MT KA KB KT : module K} {OA OB OT : carrier K}.
  Variables LMC LMC' : dhc R MA KA OA.
  Variables RMC RMC' : dhc R MB KB OB.
  Variables IPC IPC' : dhc R MT KT OT.
  Variables ip ip' : list MA -> list MB -> res MT.
  Hypothesis HL : same_commit LMC LMC'.
  Hypothesis HR : same_commit RMC RMC'.
  Hypothesis HT : same_commit IPC IPC'.
  Hypothesis HI : same_ip ip ip'.
  Variables (D : bytes -> bytes) (fuel : nat).

  Lemma dh_verify_same {Msg Key : module K} {Out : carrier K} (C C' : dhc R Msg Key Out) k m c : same_commit C C' -> dh_verify C k m c = dh_verify C' k m c.
  Proof using. intros H. unfold dh_verify. now rewrite H. Qed.
  Lemma rand_then_same a a' b b' : a = a' -> b = b' -> rand_then a b = rand_then a' b'.
  Proof using. now intros -> ->. Qed.

  Lemma gipa_commit3_same ka ma kb mb kt : gipa_commit3 LMC RMC IPC ip ka ma kb mb kt = gipa_commit3 LMC' RMC' IPC' ip' ka ma kb mb kt.
  Proof using HL HR HT HI.
    unfold gipa_commit3. rewrite HL, HR, HI. repeat ext_step. apply HT.
  Qed.

  Lemma gipa_prove_loop_same n : forall a b ka kb kt st tr,
    gipa_prove_loop LMC RMC IPC ip D fuel n a b ka kb kt st tr = gipa_prove_loop LMC' RMC' IPC' ip' D fuel n a b ka kb kt st tr.
  Proof using HL HR HT HI.
    induction n as [|n IH]; intros; [reflexivity|]. cbn [gipa_prove_loop]. destruct (length a =? 1); [reflexivity|].
    repeat (apply rbind_ext; [reflexivity|intros ?]).
    apply rbind_ext; [apply gipa_commit3_same|intros ?]. apply rbind_ext; [apply gipa_commit3_same|intros ?].
    apply rbind_ext; [reflexivity|intros [? ?]]. apply IH.
  Qed.
  Lemma gipa_prove_with_aux_same values ck :
    gipa_prove_with_aux LMC RMC IPC ip D fuel values ck = gipa_prove_with_aux LMC' RMC' IPC' ip' D fuel values ck.
  Proof using HL HR HT HI.
    destruct values as [a b], ck as [[ka kb] kt]. unfold gipa_prove_with_aux. apply rbind_ext; [reflexivity|intros ?].
    now rewrite gipa_prove_loop_same.
  Qed.
  Lemma gipa_prove_same values ck com : gipa_prove LMC RMC IPC ip D fuel values ck com = gipa_prove LMC' RMC' IPC' ip' D fuel values ck com.
  Proof using HL HR HT HI.
    destruct values as [[a b] t], ck as [[ka kb] kt], com as [[ca cb] ct]. unfold gipa_prove. rewrite HI. apply rbind_ext; [reflexivity|intros v].
    rewrite (dh_verify_same LMC LMC') by exact HL. rewrite (dh_verify_same RMC RMC') by exact HR. rewrite (dh_verify_same IPC IPC') by exact HT.
    now rewrite gipa_prove_with_aux_same.
  Qed.
  Lemma gipa_verify_base_same ka kb kt com proof :
    gipa_verify_base LMC RMC IPC ip ka kb kt com proof = gipa_verify_base LMC' RMC' IPC' ip' ka kb kt com proof.
  Proof using HL HR HT HI.
    unfold gipa_verify_base. destruct com as [[ca cb] ct], (gp_base proof) as [a b]. rewrite HI. apply rbind_ext; [reflexivity|intros t].
    rewrite (dh_verify_same LMC LMC') by exact HL. rewrite (dh_verify_same RMC RMC') by exact HR. now rewrite (dh_verify_same IPC IPC') by exact HT.
  Qed.
  Lemma gipa_verify_same ck com proof : gipa_verify LMC RMC IPC ip D fuel ck com proof = gipa_verify LMC' RMC' IPC' ip' D fuel ck com proof.
  Proof using HL HR HT HI.
    destruct ck as [[ka kb] kt]. unfold gipa_verify. destruct (_ || _); [reflexivity|]. apply rbind_ext; [reflexivity|intros [bc tr]].
    apply rbind_ext; [reflexivity|intros [ka' kb']]. apply gipa_verify_base_same.
  Qed.
End Gipa.

Lemma final_scalar_same {K : field} E E' (tr : list K) b : final_scalar E tr b = final_scalar E' tr b.
Proof. unfold final_scalar. apply rbind_ext; [reflexivity|]. intros ts. now rewrite !par_reduce_fmul. Qed.

Section Tipa.
  Context {R : Type} {P : pairing}.
  Notation K := (pK P).
  Context {MA MB MT KT : module (pK P)} {OA OB OT : carrier (pK P)}.
  Variables LMC LMC' : dhc R MA (pG2 P) OA.
  Variables RMC RMC' : dhc R MB (pG1 P) OB.
  Variables IPC IPC' : dhc R MT KT OT.
  Variables ip ip' : list MA -> list MB -> res MT.
  Hypothesis HL : same_commit LMC LMC'.
  Hypothesis HR : same_commit RMC RMC'.
  Hypothesis HT : same_commit IPC IPC'.
  Hypothesis HI : same_ip ip ip'.
  Variables (D : bytes -> bytes) (fuel : nat).

  Lemma tipa_prove_shift_same s values ck r :
    tipa_prove_with_srs_shift LMC RMC IPC ip D fuel s values ck r = tipa_prove_with_srs_shift LMC' RMC' IPC' ip' D fuel s values ck r.
  Proof using HL HR HT HI.
    destruct ck as [[ka kb] kt]. unfold tipa_prove_with_srs_shift. now rewrite (gipa_prove_with_aux_same LMC LMC' RMC RMC' IPC IPC' ip ip' HL HR HT HI).
  Qed.
  Lemma tipa_verify_shift_same v kt com proof r :
    tipa_verify_with_srs_shift LMC RMC IPC ip D fuel v kt com proof r = tipa_verify_with_srs_shift LMC' RMC' IPC' ip' D fuel v kt com proof r.
  Proof using HL HR HT HI.
    unfold tipa_verify_with_srs_shift. apply rbind_ext; [reflexivity|intros [[[ca cb] ct] tr]]. apply rbind_ext; [reflexivity|intros ti].
    destruct (tp_final_ck proof) as [fa fb], (tp_final_ck_proof proof) as [pa pb]. do 5 (apply rbind_ext; [reflexivity|intros ?]).
    destruct (gp_base (tp_gipa proof)) as [a' b']. rewrite HI. apply rbind_ext; [reflexivity|intros t].
    rewrite (dh_verify_same LMC LMC') by exact HL. rewrite (dh_verify_same RMC RMC') by exact HR. now rewrite (dh_verify_same IPC IPC') by exact HT.
  Qed.
End Tipa.

Section Ssm.
  Context {R : Type} {K : field}.
  Context {MA MT KA KT : module K} {OA OT : carrier K}.
  Variables LMC LMC' : dhc R MA KA OA.
  Variables IPC IPC' : dhc R MT KT OT.
  Variables ip ip' : list MA -> list (fmod K) -> res MT.
  Hypothesis HL : same_commit LMC LMC'.
  Hypothesis HT : same_commit IPC IPC'.
  Hypothesis HI : same_ip ip ip'.
  Variables (D : bytes -> bytes) (fuel : nat).

  Lemma gssm_prove_same values ck : gssm_prove LMC IPC ip D fuel values ck = gssm_prove LMC' IPC' ip' D fuel values ck.
  Proof using HL HT HI.
    destruct ck as [ka kt]. unfold gssm_prove.
    now rewrite (gipa_prove_with_aux_same LMC LMC' _ _ IPC IPC' ip ip' HL (same_commit_refl _) HT HI).
  Qed.
  Lemma gssm_verify_same E E' ck com b proof : gssm_verify LMC IPC ip D fuel E ck com b proof = gssm_verify LMC' IPC' ip' D fuel E' ck com b proof.
  Proof using HL HT HI.
    destruct ck as [ka kt]. unfold gssm_verify. apply rbind_ext; [reflexivity|intros [[[ca cb] ct] tr]]. apply rbind_ext; [reflexivity|intros [ka' kb']].
    rewrite (gipa_verify_base_same LMC LMC' _ _ IPC IPC' ip ip' HL (same_commit_refl _) HT HI). apply rbind_ext; [reflexivity|intros v].
    rewrite (final_scalar_same E E'). apply rbind_ext; [reflexivity|intros bb]. rewrite HI. apply rbind_ext; [reflexivity|intros t].
    rewrite (dh_verify_same LMC LMC') by exact HL. now rewrite (dh_verify_same IPC IPC') by exact HT.
  Qed.
End Ssm.

Section Tssm.
  Context {R : Type} {P : pairing}.
  Notation K := (pK P).
  Context {MA MT KT : module (pK P)} {OA OT : carrier (pK P)}.
  Variables LMC LMC' : dhc R MA (pG2 P) OA.
  Variables IPC IPC' : dhc R MT KT OT.
  Variables ip ip' : list MA -> list (fmod (pK P)) -> res MT.
  Hypothesis HL : same_commit LMC LMC'.
  Hypothesis HT : same_commit IPC IPC'.
  Hypothesis HI : same_ip ip ip'.
  Variables (D : bytes -> bytes) (fuel : nat).

  Lemma tssm_prove_same s values ck : tssm_prove LMC IPC ip D fuel s values ck = tssm_prove LMC' IPC' ip' D fuel s values ck.
  Proof using HL HT HI.
    destruct ck as [ka kt]. unfold tssm_prove.
    now rewrite (gipa_prove_with_aux_same LMC LMC' _ _ IPC IPC' ip ip' HL (same_commit_refl _) HT HI).
  Qed.
  Lemma tssm_verify_same E E' v kt com b proof : tssm_verify LMC IPC ip D fuel E v kt com b proof = tssm_verify LMC' IPC' ip' D fuel E' v kt com b proof.
  Proof using HL HT HI.
    unfold tssm_verify. apply rbind_ext; [reflexivity|intros [[[ca cb] ct] tr]]. do 4 (apply rbind_ext; [reflexivity|intros ?]).
    rewrite (final_scalar_same E E'). apply rbind_ext; [reflexivity|intros bb]. rewrite HI. apply rbind_ext; [reflexivity|intros t].
    rewrite (dh_verify_same LMC LMC') by exact HL. now rewrite (dh_verify_same IPC IPC') by exact HT.
  Qed.
End Tssm.

(** Programs that look for challenges as trees of searches, and the number of hash functions for which a search fails.
    Used by PropsSearches.v (C99). *)
Require Import List Arith NArith ZArith Lia Bool Permutation.
Import ListNotations.
Require Import Verif.Outcome Verif.Algebra Verif.Rust Verif.Gipa Verif.Poly Verif.Tipa Verif.SerFacts Verif.GipaFacts.

(** ** What a digest is used for: a 128-bit number that must be invertible, or a field element that may be missing *)
Inductive use : Type := Invertible | Random.
Definition pick {K : field} (u : use) (digest : bytes) : option K :=
  match u with
  | Invertible => let c : K := f_ofN (from_be_bytes (firstn 16 digest)) in if feqb c f0 then None else Some c
  | Random => f_rand digest
  end.
Definition useless (K : field) (us : list use) (digest : bytes) : bool :=
  existsb (fun u => match pick (K := K) u digest with Some _ => false | None => true end) us.

Fixpoint search {K : field} (D : bytes -> bytes) (fuel nonce : nat) (u : use) (payload : bytes) : option K :=
  match fuel with
  | O => None
  | S fuel => match pick u (D (usize_be nonce ++ payload)) with
              | Some c => Some c
              | None => search D fuel (S nonce) u payload
              end
  end.

(** ** Trees *)
Inductive stree (K : field) (A : Type) : Type :=
| Done (r : res A)
| Ask (u : use) (payload : bytes) (k : K -> stree K A).
Arguments Done {K A}.
Arguments Ask {K A}.
Fixpoint srun {K A} (D : bytes -> bytes) (fuel : nat) (T : stree K A) : res A :=
  match T with
  | Done r => r
  | Ask u p k => match search D fuel 0 u p with Some c => srun D fuel (k c) | None => Loop end
  end.
(** at most n searches on every path, for the uses listed *)
Inductive sdepth {K A} (us : list use) : nat -> stree K A -> Prop :=
| sdepth_done n r : r <> Loop -> sdepth us n (Done r)
| sdepth_ask n u p k : In u us -> (forall c, sdepth us n (k c)) -> sdepth us (S n) (Ask u p k).

Lemma sdepth_le {K A} us (T : stree K A) n m : sdepth us n T -> n <= m -> sdepth us m T.
Proof.
  intros H. revert m. induction H as [n r Hr|n u p k Hu Hk IH]; intros m Hm; [now constructor|].
  destruct m as [|m]; [lia|]. constructor; [exact Hu|]. intros c. apply IH. lia.
Qed.
Lemma sdepth_uses {K A} us us' (T : stree K A) n : sdepth us n T -> incl us us' -> sdepth us' n T.
Proof. intros H Hi. induction H as [n r Hr|n u p k Hu Hk IH]; constructor; auto. Qed.

Fixpoint sbind {K A B} (T : stree K A) (g : A -> stree K B) : stree K B :=
  match T with
  | Done (Ok a) => g a
  | Done (Err e) => Done (Err e)
  | Done Panic => Done Panic
  | Done Loop => Done Loop
  | Ask u p k => Ask u p (fun c => sbind (k c) g)
  end.
Lemma srun_bind {K A B} D fuel (T : stree K A) (g : A -> stree K B) :
  srun D fuel (sbind T g) = rbind (srun D fuel T) (fun a => srun D fuel (g a)).
Proof.
  induction T as [r|u p k IH]; [destruct r; reflexivity|]. cbn [sbind srun]. destruct (search D fuel 0 u p) as [c|]; [apply IH|reflexivity].
Qed.
Lemma sdepth_bind {K A B} us n m (T : stree K A) (g : A -> stree K B) :
  sdepth us n T -> (forall a, sdepth us m (g a)) -> sdepth us (n + m) (sbind T g).
Proof.
  intros H Hg. induction H as [n r Hr|n u p k Hu Hk IH].
  - destruct r as [a|e| |]; cbn [sbind]; [apply sdepth_le with m; [apply Hg|lia]|constructor; discriminate|constructor; discriminate|congruence].
  - cbn [sbind Nat.add]. constructor; auto.
Qed.

(** a program that makes at most n searches *)
Record searching {K : field} {A : Type} (us : list use) (n : nat) (f : (bytes -> bytes) -> nat -> res A) : Type := mk_searching {
  sg_tree : stree K A;
  sg_depth : sdepth us n sg_tree;
  sg_run : forall D fuel, digest16 D -> f D fuel = srun D fuel sg_tree }.
Arguments mk_searching {K A us n f}.

Section Searching.
  Context {K : field}.
  Notation sg := (searching (K := K)).
  Lemma searching_pure {A} us n (x : res A) : x <> Loop -> sg us n (fun _ _ => x).
  Proof. intros H. exact (mk_searching (Done x) (sdepth_done us n x H) (fun _ _ _ => eq_refl)). Qed.
  Lemma searching_le {A} us n m (f : (bytes -> bytes) -> nat -> res A) : n <= m -> sg us n f -> sg us m f.
  Proof. intros H [T H1 H2]. exact (mk_searching T (sdepth_le us T n m H1 H) H2). Qed.
  Lemma searching_uses {A} us us' n (f : (bytes -> bytes) -> nat -> res A) : incl us us' -> sg us n f -> sg us' n f.
  Proof. intros H [T H1 H2]. exact (mk_searching T (sdepth_uses us us' T n H1 H) H2). Qed.
  Lemma searching_ext {A} us n (f g : (bytes -> bytes) -> nat -> res A) : (forall D fuel, f D fuel = g D fuel) -> sg us n f -> sg us n g.
  Proof. intros H [T H1 H2]. refine (mk_searching T H1 _). intros D fuel HD. rewrite <- H. auto. Qed.
  Lemma searching_bind {A B} us n m (x : (bytes -> bytes) -> nat -> res A) (g : A -> (bytes -> bytes) -> nat -> res B) :
    sg us n x -> (forall a, sg us m (g a)) -> sg us (n + m) (fun D fuel => rbind (x D fuel) (fun a => g a D fuel)).
  Proof.
    intros [T H1 H2] Hg. refine (mk_searching (sbind T (fun a => sg_tree _ _ _ (Hg a))) _ _).
    - apply sdepth_bind; [exact H1|]. intros a. apply sg_depth.
    - intros D fuel HD. rewrite srun_bind, <- H2 by exact HD. destruct (x D fuel) as [a|e| |]; cbn [rbind]; try reflexivity. now apply sg_run.
  Qed.
  (** a computation without searches first *)
  Lemma searching_after {A B} us n (x : res A) (g : A -> (bytes -> bytes) -> nat -> res B) :
    x <> Loop -> (forall a, x = Ok a -> sg us n (g a)) -> sg us n (fun D fuel => rbind x (fun a => g a D fuel)).
  Proof.
    intros Hx Hg. destruct x as [a|e| |]; cbn [rbind]; [now apply Hg|apply searching_pure; discriminate|apply searching_pure; discriminate|congruence].
  Qed.

  Lemma rand_challenge_search D fuel nonce payload :
    rand_challenge (K := K) D fuel nonce payload = match search D fuel nonce Random payload with Some c => Ok c | None => Loop end.
  Proof.
    revert nonce. induction fuel as [|fuel IH]; intros nonce; [reflexivity|]. cbn [rand_challenge search pick].
    destruct (f_rand (D (usize_be nonce ++ payload))) as [c|]; [reflexivity|apply IH].
  Qed.
  Context {OA OB OT : carrier K}.
  Definition round_payload (prev : K) (c1 c2 : com3 OA OB OT) : bytes :=
    let '(a1, b1, t1) := c1 in let '(a2, b2, t2) := c2 in
    fser prev ++ cser a1 ++ cser b1 ++ cser t1 ++ cser a2 ++ cser b2 ++ cser t2.
  Lemma gipa_challenge_search D fuel nonce prev (c1 c2 : com3 OA OB OT) : digest16 D ->
    gipa_challenge D fuel nonce prev c1 c2 =
    match search D fuel nonce Invertible (round_payload prev c1 c2) with Some c => Ok (finv c, c) | None => Loop end.
  Proof.
    intros HD. revert nonce. induction fuel as [|fuel IH]; intros nonce; [reflexivity|]. cbn [gipa_challenge search].
    assert (Ep : gipa_hash_input nonce prev c1 c2 = usize_be nonce ++ round_payload prev c1 c2)
      by (destruct c1 as [[? ?] ?], c2 as [[? ?] ?]; reflexivity).
    rewrite Ep. unfold slice_to. rewrite (proj2 (Nat.leb_le _ _) (HD _)). cbn [rbind pick]. unfold finverse.
    destruct (feqb (f_ofN (from_be_bytes (firstn 16 (D (usize_be nonce ++ round_payload prev c1 c2)))) : K) f0) eqn:E; [|reflexivity]. apply IH.
  Qed.
  Lemma searching_rand us payload : In Random us -> sg us 1 (fun D fuel => rand_challenge (K := K) D fuel 0 payload).
  Proof.
    intros Hu. refine (mk_searching (Ask Random payload (fun c => Done (Ok c))) _ _).
    - constructor; [exact Hu|]. intros c. constructor. discriminate.
    - intros D fuel _. rewrite rand_challenge_search. cbn [srun]. now destruct (search D fuel 0 Random payload).
  Qed.
  Lemma searching_round us prev (c1 c2 : com3 OA OB OT) : In Invertible us -> sg us 1 (fun D fuel => gipa_challenge (K := K) D fuel 0 prev c1 c2).
  Proof.
    intros Hu. refine (mk_searching (Ask Invertible (round_payload prev c1 c2) (fun c => Done (Ok (finv c, c)))) _ _).
    - constructor; [exact Hu|]. intros c. constructor. discriminate.
    - intros D fuel HD. rewrite gipa_challenge_search by exact HD. cbn [srun]. now destruct (search D fuel 0 Invertible (round_payload prev c1 c2)).
  Qed.
End Searching.

(** ** All functions on a finite set of queries *)
Definition bytes_dec (a b : bytes) : {a = b} + {a <> b} := list_eq_dec N.eq_dec a b.
Definition upd (D : bytes -> bytes) (x y : bytes) : bytes -> bytes := fun q => if bytes_dec q x then y else D q.
Fixpoint tables (X Y : list bytes) (D0 : bytes -> bytes) : list (bytes -> bytes) :=
  match X with [] => [D0] | x :: X => flat_map (fun y => tables X Y (upd D0 x y)) Y end.

Fixpoint lsum (l : list nat) : nat := match l with [] => 0 | x :: l => x + lsum l end.
Lemma lsum_app l l' : lsum (l ++ l') = lsum l + lsum l'.
Proof. induction l; cbn; lia. Qed.
Lemma lsum_le {A} (f g : A -> nat) l : (forall a, In a l -> f a <= g a) -> lsum (map f l) <= lsum (map g l).
Proof. induction l as [|a l IH]; intros H; cbn [map lsum]; [lia|]. pose proof (H a (in_eq _ _)). pose proof (IH (fun x Hx => H x (in_cons _ _ _ Hx))). lia. Qed.
Lemma lsum_ext {A} (f g : A -> nat) l : (forall a, In a l -> f a = g a) -> lsum (map f l) = lsum (map g l).
Proof. induction l as [|a l IH]; intros H; cbn [map lsum]; [reflexivity|]. rewrite (H a (in_eq _ _)), IH; [reflexivity|]. intros x Hx. apply H. now right. Qed.
Lemma lsum_swap {A B} (f : A -> B -> nat) l l' :
  lsum (map (fun a => lsum (map (fun b => f a b) l')) l) = lsum (map (fun b => lsum (map (fun a => f a b) l)) l').
Proof.
  induction l as [|a l IH]; cbn [map lsum].
  - induction l'; cbn [map lsum]; lia.
  - rewrite IH. clear IH. induction l' as [|b l' IH]; cbn [map lsum]; [reflexivity|]. lia.
Qed.
Lemma lsum_mul {A} (f : A -> nat) c l : lsum (map f l) * c = lsum (map (fun a => f a * c) l).
Proof. induction l as [|a l IH]; cbn [map lsum]; [reflexivity|]. lia. Qed.
Lemma lsum_const {A} c (l : list A) : lsum (map (fun _ => c) l) = length l * c.
Proof. induction l as [|a l IH]; cbn [map lsum length]; lia. Qed.

Section Tables.
  Variable Y : list bytes.
  Notation agree D D' := (forall q, D q = D' q).
  Definition respects (Q : (bytes -> bytes) -> bool) : Prop := forall D D', agree D D' -> Q D = Q D'.
  Definition cnt (X : list bytes) (D0 : bytes -> bytes) (Q : (bytes -> bytes) -> bool) : nat := length (filter Q (tables X Y D0)).

  Lemma cnt_nil D0 Q : cnt [] D0 Q = if Q D0 then 1 else 0.
  Proof. unfold cnt. cbn. now destruct (Q D0). Qed.
  Lemma filter_flat_map {A B} (p : B -> bool) (f : A -> list B) l : length (filter p (flat_map f l)) = lsum (map (fun a => length (filter p (f a))) l).
  Proof. induction l as [|a l IH]; [reflexivity|]. cbn [flat_map map lsum]. rewrite filter_app, app_length. lia. Qed.
  Lemma cnt_cons x X D0 Q : cnt (x :: X) D0 Q = lsum (map (fun y => cnt X (upd D0 x y) Q) Y).
  Proof. unfold cnt. cbn [tables]. apply filter_flat_map. Qed.
  Lemma upd_agree D D' x y : agree D D' -> agree (upd D x y) (upd D' x y).
  Proof. intros H q. unfold upd. now destruct (bytes_dec q x). Qed.
  Lemma cnt_ext X Q : respects Q -> forall D D', agree D D' -> cnt X D Q = cnt X D' Q.
  Proof.
    intros HQ. induction X as [|x X IH]; intros D D' H; [now rewrite !cnt_nil, (HQ D D' H)|].
    rewrite !cnt_cons. apply lsum_ext. intros y _. apply IH. now apply upd_agree.
  Qed.
  Lemma upd_swap D x y x' y' : x <> x' -> agree (upd (upd D x y) x' y') (upd (upd D x' y') x y).
  Proof. intros H q. unfold upd. destruct (bytes_dec q x'), (bytes_dec q x); congruence. Qed.
  Lemma cnt_perm Q : respects Q -> forall X X', Permutation X X' -> NoDup X -> forall D, cnt X D Q = cnt X' D Q.
  Proof.
    intros HQ X X' HP. induction HP as [|x X X' HP IH|x x' X|X X' X'' HP1 IH1 HP2 IH2]; intros HN D.
    - reflexivity.
    - rewrite !cnt_cons. apply lsum_ext. intros y _. apply IH. now inversion HN.
    - rewrite !cnt_cons. rewrite (lsum_ext _ (fun y => lsum (map (fun y' => cnt X (upd (upd D x' y) x y') Q) Y))) by (intros; apply cnt_cons).
      rewrite lsum_swap. apply lsum_ext. intros y _. rewrite cnt_cons. apply lsum_ext. intros y' _. apply cnt_ext; [exact HQ|].
      apply upd_swap. intros ->. inversion HN as [|? ? Hn _]. apply Hn. now left.
    - rewrite IH1 by exact HN. apply IH2. eapply Permutation_NoDup; eauto.
  Qed.
  Lemma cnt_app S R D0 Q : cnt (S ++ R) D0 Q = lsum (map (fun D => cnt R D Q) (tables S Y D0)).
  Proof.
    revert D0. induction S as [|x S IH]; intros D0; [cbn [app tables map lsum]; lia|]. cbn [app tables]. rewrite cnt_cons.
    rewrite (lsum_ext _ (fun y => lsum (map (fun D => cnt R D Q) (tables S Y (upd D0 x y))))) by (intros; apply IH).
    generalize Y at 2 4. intros Ys. induction Ys as [|y Ys IHy]; [reflexivity|]. cbn [map lsum flat_map]. rewrite map_app, lsum_app. lia.
  Qed.
  Lemma tables_length X D0 : length (tables X Y D0) = length Y ^ length X.
  Proof.
    revert D0. induction X as [|x X IH]; intros D0; [reflexivity|]. cbn [tables length Nat.pow].
    enough (H : forall Ys, length (flat_map (fun y => tables X Y (upd D0 x y)) Ys) = length Ys * length Y ^ length X) by apply H.
    induction Ys as [|y Ys IHy]; [reflexivity|]. cbn [flat_map length]. rewrite app_length, IH, IHy. lia.
  Qed.
  Lemma filter_le {A} (p : A -> bool) l : length (filter p l) <= length l.
  Proof. induction l as [|a l IH]; cbn; [lia|]. destruct (p a); cbn; lia. Qed.
  Lemma cnt_le X D0 Q : cnt X D0 Q <= length Y ^ length X.
  Proof. unfold cnt. rewrite <- (tables_length X D0). apply filter_le. Qed.
  (** elsewhere the table is D0 *)
  Lemma tables_out X D0 D q : In D (tables X Y D0) -> ~ In q X -> D q = D0 q.
  Proof.
    revert D0. induction X as [|x X IH]; intros D0 H Hq; [destruct H as [<-|[]]; reflexivity|].
    cbn [tables] in H. apply in_flat_map in H as [y [_ H]]. rewrite (IH _ H) by (intros Hi; apply Hq; now right).
    unfold upd. destruct (bytes_dec q x) as [->|]; [|reflexivity]. exfalso. apply Hq. now left.
  Qed.
  Lemma tables_in X D0 D q : NoDup X -> In D (tables X Y D0) -> In q X -> In (D q) Y.
  Proof.
    revert D0. induction X as [|x X IH]; intros D0 HN H Hq; [destruct Hq|]. inversion HN as [|? ? Hx HN']. subst.
    cbn [tables] in H. apply in_flat_map in H as [y [Hy H]]. destruct Hq as [<-|Hq]; [|now apply (IH (upd D0 x y))].
    rewrite (tables_out _ _ _ _ H Hx). unfold upd. destruct (bytes_dec x x); [exact Hy|congruence].
  Qed.
  (** all answers bad *)
  Lemma tables_bad bad X D0 : NoDup X ->
    length (filter (fun D => forallb (fun q => bad (D q)) X) (tables X Y D0)) <= length (filter bad Y) ^ length X.
  Proof.
    revert D0. induction X as [|x X IH]; intros D0 HN; [cbn; lia|]. inversion HN as [|? ? Hx HN']. subst.
    cbn [tables length Nat.pow]. rewrite filter_flat_map.
    enough (H : forall Ys, lsum (map (fun y => length (filter (fun D => forallb (fun q => bad (D q)) (x :: X)) (tables X Y (upd D0 x y)))) Ys)
        <= length (filter bad Ys) * length (filter bad Y) ^ length X) by apply H.
    induction Ys as [|y Ys IHy]; [cbn; lia|]. cbn [map lsum filter].
    assert (Hf : filter (fun D => forallb (fun q => bad (D q)) (x :: X)) (tables X Y (upd D0 x y)) =
                 filter (fun D => bad y && forallb (fun q => bad (D q)) X) (tables X Y (upd D0 x y))).
    { apply filter_ext_in. intros D HD. cbn [forallb]. rewrite (tables_out _ _ _ _ HD Hx). unfold upd. destruct (bytes_dec x x); [reflexivity|congruence]. }
    rewrite Hf. clear Hf. destruct (bad y) eqn:Eb; cbn [andb].
    - cbn [length Nat.mul]. specialize (IH (upd D0 x y) HN'). lia.
    - assert (E0 : filter (fun _ : bytes -> bytes => false) (tables X Y (upd D0 x y)) = []) by (induction (tables X Y (upd D0 x y)); auto).
      rewrite E0. cbn [length]. lia.
  Qed.
End Tables.

Lemma nodup_map_on {A B} (f : A -> B) l : (forall x y, In x l -> In y l -> f x = f y -> x = y) -> NoDup l -> NoDup (map f l).
Proof.
  intros Hf H. induction H as [|x l Hx H IH]; cbn [map]; constructor.
  - intros Hi. apply in_map_iff in Hi as [y [E Hy]]. apply Hf in E; [subst; contradiction|now right|now left].
  - apply IH. intros a b Ha Hb. apply Hf; now right.
Qed.

(** ** The number of tables for which a tree runs out *)
Section Count.
  Context {K : field} {A : Type} (us : list use) (Y : list bytes) (t : nat) (Ht : (N.of_nat t <= 2 ^ 64)%N).
  Notation bad := (useless K us).
  Notation B := (length Y).
  Notation b := (length (filter bad Y)).
  Definition qs (p : bytes) : list bytes := map (fun i => usize_be i ++ p) (seq 0 t).
  Definition is_loop (x : res A) : bool := match x with Loop => true | _ => false end.

  Lemma qs_in p q : In q (qs p) <-> exists i, i < t /\ q = usize_be i ++ p.
  Proof.
    unfold qs. rewrite in_map_iff. split.
    - intros [i [<- Hi]]. apply in_seq in Hi. exists i. split; [lia|reflexivity].
    - intros [i [Hi ->]]. exists i. split; [reflexivity|]. apply in_seq. lia.
  Qed.
  Lemma nonce_split i j p p' : usize_be i ++ p = usize_be j ++ p' -> usize_be i = usize_be j /\ p = p'.
  Proof. apply app_same_length. now rewrite !usize_be_length. Qed.
  Lemma qs_nodup p : NoDup (qs p).
  Proof.
    unfold qs. apply nodup_map_on; [|apply seq_NoDup].
    intros i j Hi Hj E. apply in_seq in Hi, Hj. apply nonce_split in E as [E _]. apply usize_be_inj; [| |exact E]; unfold u64_bound; lia.
  Qed.
  Lemma qs_disjoint p p' q : In q (qs p) -> In q (qs p') -> p = p'.
  Proof. intros H1 H2. apply qs_in in H1 as [i [_ ->]]. apply qs_in in H2 as [j [_ E]]. now apply nonce_split in E as [_ E]. Qed.

  Lemma search_agree D D' u p : forall fuel n, (forall i, n <= i < n + fuel -> D (usize_be i ++ p) = D' (usize_be i ++ p)) ->
    search (K := K) D fuel n u p = search D' fuel n u p.
  Proof.
    induction fuel as [|fuel IH]; intros n H; [reflexivity|]. cbn [search]. rewrite (H n) by lia.
    destruct (pick u (D' (usize_be n ++ p))); [reflexivity|]. apply IH. intros i Hi. apply H. lia.
  Qed.
  Lemma search_found D u p : In u us -> (exists q, In q (qs p) /\ bad (D q) = false) -> exists c, search (K := K) D t 0 u p = Some c.
  Proof.
    intros Hu [q [Hq Hb]]. apply qs_in in Hq as [i [Hi ->]].
    enough (H : forall fuel n, n <= i < n + fuel -> exists c, search (K := K) D fuel n u p = Some c) by (apply H; lia).
    induction fuel as [|fuel IH]; intros n Hn; [lia|]. cbn [search]. destruct (pick u (D (usize_be n ++ p))) as [c|] eqn:E; [eauto|].
    apply IH. enough (n <> i) by lia. intros ->. unfold useless in Hb.
    assert (existsb (fun u => match pick (K := K) u (D (usize_be i ++ p)) with Some _ => false | None => true end) us = true); [|congruence].
    apply existsb_exists. exists u. split; [exact Hu|]. now rewrite E.
  Qed.
  Lemma srun_agree (T : stree K A) fuel D D' : (forall q, D q = D' q) -> srun D fuel T = srun D' fuel T.
  Proof.
    intros H. induction T as [r|u p k IH]; [reflexivity|]. cbn [srun]. rewrite (search_agree D D' u p fuel 0) by (intros; apply H).
    destruct (search D' fuel 0 u p); [apply IH|reflexivity].
  Qed.
  Definition runs_out (T : stree K A) (D : bytes -> bytes) : bool := is_loop (srun D t T).
  Lemma runs_out_respects T : respects (runs_out T).
  Proof. intros D D' H. unfold runs_out. now rewrite (srun_agree T t D D' H). Qed.

  (** a payload with a query outside X has a useful answer outside X *)
  Definition served (X : list bytes) (D0 : bytes -> bytes) : Prop :=
    forall p, (exists q, In q (qs p) /\ ~ In q X) -> exists q, In q (qs p) /\ ~ In q X /\ bad (D0 q) = false.

  Notation mem q l := (if in_dec bytes_dec q l then true else false).
  Lemma mem_spec q l : mem q l = true <-> In q l.
  Proof. destruct (in_dec bytes_dec q l); split; auto; discriminate. Qed.
  Lemma mem_not q l : negb (mem q l) = true <-> ~ In q l.
  Proof. destruct (in_dec bytes_dec q l); cbn; split; auto; try discriminate; contradiction. Qed.

  Theorem runs_out_few n (T : stree K A) : sdepth us n T -> forall X D0, NoDup X -> served X D0 ->
    cnt Y X D0 (runs_out T) * B ^ t <= n * b ^ t * B ^ length X.
  Proof.
    induction 1 as [n r Hr|n u p k Hu Hk IH]; intros X D0 HN HS.
    - assert (E : cnt Y X D0 (runs_out (Done r)) = 0); [|rewrite E; apply Nat.le_0_l].
      unfold cnt, runs_out. cbn [srun]. assert (El : is_loop r = false) by (destruct r; try reflexivity; congruence). rewrite El.
      induction (tables X Y D0); auto.
    - set (S := filter (fun q => mem q X) (qs p)). set (R := filter (fun q => negb (mem q (qs p))) X).
      assert (HSi : forall q, In q S <-> In q (qs p) /\ In q X) by (intros q; unfold S; rewrite filter_In, mem_spec; tauto).
      assert (HRi : forall q, In q R <-> In q X /\ ~ In q (qs p)) by (intros q; unfold R; rewrite filter_In, mem_not; tauto).
      assert (HSn : NoDup S) by (apply NoDup_filter, qs_nodup). assert (HRn : NoDup R) by (apply NoDup_filter, HN).
      assert (HP : Permutation X (S ++ R)).
      { apply NoDup_Permutation; [exact HN| |].
        - clear - HSn HRn HSi HRi. induction HSn as [|q S' Hq HS' IHS] in HSi |- *; [exact HRn|]. cbn [app]. constructor.
          + rewrite in_app_iff. intros [Hi|Hi]; [contradiction|]. apply HRi in Hi as [_ Hi]. apply Hi. apply HSi. now left.
          + enough (G : forall S', NoDup S' -> (forall q, In q S' -> In q (qs p)) -> NoDup (S' ++ R)).
            { apply G; [exact HS'|]. intros q' Hq'. apply HSi. now right. }
            clear - HRn HRi. intros S' HS'. induction HS' as [|q S' Hq HS' IHS]; intros Hin; [exact HRn|]. cbn [app]. constructor.
            * rewrite in_app_iff. intros [Hi|Hi]; [contradiction|]. apply HRi in Hi as [_ Hi]. apply Hi, Hin. now left.
            * apply IHS. intros q' Hq'. apply Hin. now right.
        - intros q. rewrite in_app_iff, HSi, HRi. destruct (in_dec bytes_dec q (qs p)); tauto. }
      rewrite (cnt_perm Y (runs_out (Ask u p k)) (runs_out_respects _) X (S ++ R) HP HN), cnt_app.
      set (allbad := fun D => forallb (fun q => bad (D q)) S && (length S =? t)).
      assert (Hlen : length X = length S + length R) by (rewrite (Permutation_length HP), app_length; reflexivity).
      (* one table of the queries of p *)
      assert (Hone : forall D, In D (tables S Y D0) ->
        cnt Y R D (runs_out (Ask u p k)) * B ^ t <= (if allbad D then 1 else 0) * (B ^ length R * B ^ t) + n * b ^ t * B ^ length R).
      { intros D HD. destruct (allbad D) eqn:Ea.
        - pose proof (cnt_le Y R D (runs_out (Ask u p k))) as H. apply (Nat.mul_le_mono_r _ _ (B ^ t)) in H. lia.
        - assert (Hgood : exists q, In q (qs p) /\ ~ In q R /\ bad (D q) = false).
          { apply andb_false_iff in Ea as [Ea|Ea].
            - assert (He : exists q, In q S /\ bad (D q) = false).
              { clear - Ea. induction S as [|q S' IH]; [discriminate|]. cbn [forallb] in Ea. apply andb_false_iff in Ea as [Ea|Ea];
                  [exists q; split; [now left|exact Ea]|]. destruct (IH Ea) as [q' [H1 H2]]. exists q'. split; [now right|exact H2]. }
              destruct He as [q [Hq Hb]]. apply HSi in Hq as [H1 H2]. exists q. split; [exact H1|]. split; [|exact Hb]. rewrite HRi. tauto.
            - apply Nat.eqb_neq in Ea.
              assert (Hm : exists q, In q (qs p) /\ ~ In q X).
              { destruct (existsb (fun q => negb (mem q X)) (qs p)) eqn:Ex.
                - apply existsb_exists in Ex as [q [H1 H2]]. apply mem_not in H2. eauto.
                - exfalso. apply Ea. assert (ES : S = qs p).
                  { unfold S. clear - Ex. induction (qs p) as [|q l IH]; [reflexivity|]. cbn [existsb filter] in *. apply orb_false_iff in Ex as [E1 E2].
                    apply negb_false_iff in E1. rewrite E1. f_equal. now apply IH. }
                  rewrite ES. unfold qs. now rewrite map_length, seq_length. }
              destruct (HS p Hm) as [q [H1 [H2 H3]]]. exists q. split; [exact H1|]. split; [rewrite HRi; tauto|].
              rewrite (tables_out Y S D0 D q HD); [exact H3|]. rewrite HSi. tauto. }
          destruct (search_found D u p Hu) as [c Hc]; [destruct Hgood as [q [H1 [_ H3]]]; eauto|].
          assert (Hcnt : cnt Y R D (runs_out (Ask u p k)) = cnt Y R D (runs_out (k c))).
          { unfold cnt. f_equal. apply filter_ext_in. intros D' HD'. unfold runs_out. cbn [srun].
            rewrite (search_agree D' D u p t 0).
            - now rewrite Hc.
            - intros i Hi. apply (tables_out Y R D D'); [exact HD'|]. rewrite HRi. intros [_ Hn]. apply Hn. apply qs_in. exists i. split; [lia|reflexivity]. }
          rewrite Hcnt. cbn [Nat.mul Nat.add]. apply IH; [exact HRn|].
          intros p' [q [Hq Hn]]. destruct (list_eq_dec N.eq_dec p' p) as [->|Hp'].
          + destruct Hgood as [q' [H1 [H2 H3]]]. eauto.
          + assert (Hx : ~ In q X).
            { intros Hx. apply Hn. apply HRi. split; [exact Hx|]. intros Hq'. apply Hp'. exact (qs_disjoint _ _ _ Hq Hq'). }
            destruct (HS p') as [q' [H1 [H2 H3]]]; [eauto|]. exists q'. split; [exact H1|]. split; [rewrite HRi; tauto|].
            rewrite (tables_out Y S D0 D q' HD); [exact H3|]. rewrite HSi. tauto. }
      rewrite lsum_mul. eapply Nat.le_trans; [apply (lsum_le _ _ _ Hone)|].
      assert (Hsplit : lsum (map (fun D => (if allbad D then 1 else 0) * (B ^ length R * B ^ t) + n * b ^ t * B ^ length R) (tables S Y D0)) =
        length (filter allbad (tables S Y D0)) * (B ^ length R * B ^ t) + length (tables S Y D0) * (n * b ^ t * B ^ length R)).
      { generalize (B ^ length R * B ^ t) (n * b ^ t * B ^ length R). intros v w. clear.
        induction (tables S Y D0) as [|D l IHl]; [reflexivity|]. cbn [map lsum filter length]. rewrite IHl. destruct (allbad D); cbn [length]; lia. }
      rewrite Hsplit, tables_length, Hlen, Nat.pow_add_r.
      assert (Hbad : length (filter allbad (tables S Y D0)) * B ^ t <= b ^ t * B ^ length S).
      { destruct (Nat.eqb_spec (length S) t) as [E|E].
        - assert (Ef : filter allbad (tables S Y D0) = filter (fun D => forallb (fun q => bad (D q)) S) (tables S Y D0)).
          { apply filter_ext. intros D. unfold allbad. destruct (Nat.eqb_spec (length S) t); [apply andb_true_r|congruence]. }
          rewrite Ef, <- E. apply Nat.mul_le_mono_r. now apply tables_bad.
        - assert (E0 : filter allbad (tables S Y D0) = []); [|rewrite E0; apply Nat.le_0_l].
          assert (Ef : forall D, allbad D = false) by (intros D; unfold allbad; destruct (Nat.eqb_spec (length S) t); [contradiction|apply andb_false_r]).
          clear - Ef. induction (tables S Y D0) as [|D l IHl]; [reflexivity|]. cbn [filter]. now rewrite Ef. }
      apply (Nat.mul_le_mono_r _ _ (B ^ length R)) in Hbad.
      revert Hbad. generalize (length (filter allbad (tables S Y D0))) (B ^ t) (b ^ t) (B ^ length S) (B ^ length R). intros v1 v2 v3 v4 v5 Hbad. nia.
  Qed.
End Count.

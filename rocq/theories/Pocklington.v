(** A primality test with a certificate (Pocklington's criterion and, by Fermat's theorem, its extension to
    a certificate for a third of the digits), to have the real scalar fields of the curves that the
    tests and benchmarks use as instances of the interface of Algebra.v.  Nothing here models code of the repository. *)
Require Import List Arith NArith ZArith Znumtheory Zpow_facts Lia Bool Permutation.
Import ListNotations.
Local Open Scope Z_scope.

(** ** The criterion *)
Section Order.
  Variables (a p : Z).
  Hypothesis Hp : 1 < p.
  Let unit_at (n : nat) : Prop := (a ^ Z.of_nat n) mod p = 1.

  Lemma unit_dec n : {unit_at n} + {~ unit_at n}.
  Proof. apply Z.eq_dec. Qed.

  Lemma least_unit n : (0 < n)%nat -> unit_at n ->
    exists d, (0 < d)%nat /\ unit_at d /\ forall i, (0 < i < d)%nat -> ~ unit_at i.
  Proof.
    intros Hn Hu. induction n as [n IH] using lt_wf_ind.
    destruct (Exists_dec (fun i => (0 < i)%nat /\ unit_at i) (seq 0 n)) as [E|E].
    { intros i. destruct (unit_dec i); destruct (lt_dec 0 i); tauto. }
    - apply Exists_exists in E. destruct E as (i & Hi & H0 & Hiu). apply in_seq in Hi. apply (IH i); [lia|assumption|assumption].
    - exists n. do 2 (split; [assumption|]). intros i Hi Hiu. apply E, Exists_exists. exists i. split; [apply in_seq; lia|].
      split; [lia|assumption].
  Qed.

  Lemma unit_add i j : unit_at i -> unit_at (i + j) <-> unit_at j.
  Proof.
    unfold unit_at. intros Hi. rewrite Nat2Z.inj_add, Z.pow_add_r by lia.
    rewrite <- Zmult_mod_idemp_l, Hi, Z.mul_1_l. tauto.
  Qed.
  Lemma unit_mul i k : unit_at i -> unit_at (k * i).
  Proof.
    intros Hi. induction k as [|k IH].
    - unfold unit_at. change (0 * i)%nat with O. cbn [Z.of_nat]. rewrite Z.pow_0_r. apply Z.mod_1_l. exact Hp.
    - change (S k * i)%nat with (i + k * i)%nat. now apply unit_add.
  Qed.

  Lemma order_divides d n : (0 < d)%nat -> unit_at d -> (forall i, (0 < i < d)%nat -> ~ unit_at i) ->
    unit_at n -> Nat.divide d n.
  Proof.
    intros H0 Hd Hl Hn. exists (n / d)%nat. pose proof (Nat.div_mod n d ltac:(lia)) as E.
    pose proof (Nat.mod_upper_bound n d ltac:(lia)) as B.
    assert (Hr : unit_at (n mod d)).
    { rewrite E, (Nat.mul_comm d) in Hn. now apply unit_add in Hn; [|apply unit_mul]. }
    destruct (Nat.eq_dec (n mod d) 0) as [Z0|NZ]; [lia|]. exfalso. apply (Hl (n mod d)%nat); [lia|exact Hr].
  Qed.

  (** The powers below the order are distinct residues: the order is at most the modulus. *)
  Lemma order_le d : (0 < d)%nat -> unit_at d -> (forall i, (0 < i < d)%nat -> ~ unit_at i) -> Z.of_nat d <= p.
  Proof.
    intros H0 Hd Hl.
    set (res := map (fun i => Z.to_nat ((a ^ Z.of_nat i) mod p)) (seq 0 d)).
    assert (Hb : forall i, 0 <= (a ^ Z.of_nat i) mod p < p) by (intros; apply Z.mod_pos_bound; lia).
    assert (Hnd : NoDup res).
    { unfold res. assert (Hinj : forall i j, (i <= j < d)%nat ->
        (a ^ Z.of_nat i) mod p = (a ^ Z.of_nat j) mod p -> i = j).
      { intros i j Hij E. destruct (Nat.eq_dec i j) as [->|Hne]; [reflexivity|]. exfalso.
        apply (Hl (j - i)%nat); [lia|]. apply (unit_add (d - i + i)).
        { replace (d - i + i)%nat with d by lia. exact Hd. }
        replace (d - i + i + (j - i))%nat with (d - i + j)%nat by lia.
        unfold unit_at. rewrite Nat2Z.inj_add, Z.pow_add_r by lia. rewrite <- Zmult_mod_idemp_r, <- E, Zmult_mod_idemp_r.
        rewrite <- Z.pow_add_r by lia. rewrite <- Nat2Z.inj_add. replace (d - i + i)%nat with d by lia. exact Hd. }
      apply NoDup_nth with (d := O). intros i j Hi Hj E. rewrite map_length, seq_length in Hi, Hj.
      set (f := fun i => Z.to_nat ((a ^ Z.of_nat i) mod p)) in *.
      rewrite (nth_indep _ O (f O)), map_nth, seq_nth in E by (rewrite ?map_length, ?seq_length; lia).
      rewrite (nth_indep _ O (f O)), map_nth, seq_nth in E by (rewrite ?map_length, ?seq_length; lia).
      unfold f in E. cbn [Nat.add] in E. apply Z2Nat.inj in E; [|apply Hb|apply Hb].
      destruct (le_lt_dec i j); [apply Hinj; [lia|exact E]|symmetry; apply Hinj; [lia|symmetry; exact E]]. }
    assert (Hincl : incl res (seq 0 (Z.to_nat p))).
    { intros x Hx. unfold res in Hx. apply in_map_iff in Hx. destruct Hx as (i & <- & _). apply in_seq. specialize (Hb i). lia. }
    pose proof (NoDup_incl_length Hnd Hincl) as L. unfold res in L. rewrite map_length, !seq_length in L. lia.
  Qed.
End Order.

(** [q ^ e] divides a divisor [d] of [N] if [d] does not divide [N / q]. *)
Lemma prime_power_divides q e d N : prime q -> 0 < N -> (q ^ Z.of_nat e | N) -> (0 < e)%nat ->
  (d | N) -> ~ (d | N / q) -> (q ^ Z.of_nat e | d).
Proof.
  intros Hq HN Hqe He [k Hk] Hnd.
  assert (Hq1 : 1 < q) by (destruct Hq; assumption).
  assert (Hndk : ~ (q | k)).
  { intros [k' ->]. apply Hnd. exists k'. rewrite Hk. replace (k' * q * d) with (k' * d * q) by ring. now rewrite Z.div_mul by lia. }
  assert (Hr : rel_prime (q ^ Z.of_nat e) k).
  { clear - Hq Hndk He. assert (Hqk : rel_prime q k) by (apply prime_rel_prime; assumption). clear He.
    induction e as [|e IH]; [cbn; apply rel_prime_1|]. rewrite Nat2Z.inj_succ, Z.pow_succ_r by lia.
    apply rel_prime_sym, rel_prime_mult; apply rel_prime_sym; assumption. }
  rewrite Hk in Hqe. exact (Gauss _ _ _ Hqe Hr).
Qed.

Lemma coprime_product_divides x y d : rel_prime x y -> (x | d) -> (y | d) -> (x * y | d).
Proof.
  intros Hr [k ->] Hy. rewrite Z.mul_comm in Hy. apply Gauss in Hy; [|apply rel_prime_sym; exact Hr].
  destruct Hy as [m ->]. exists m. ring.
Qed.

(** ** A test by computation *)

(** [a ^ e] modulo [n], by squaring. *)
Fixpoint pow_mod (n a : Z) (e : positive) : Z :=
  match e with
  | xH => a mod n
  | xO e => Z.square (pow_mod n a e) mod n
  | xI e => ((Z.square (pow_mod n a e) mod n) * a) mod n
  end.
Definition pow_modz (n a e : Z) : Z := match e with Zpos e => pow_mod n a e | _ => 0 end.

Lemma pow_mod_spec n a e : pow_mod n a e = (a ^ Zpos e) mod n.
Proof.
  induction e as [e IH|e IH|]; cbn [pow_mod].
  - rewrite Z.square_spec, IH, <- Zmult_mod, Zmult_mod_idemp_l. rewrite Pos2Z.inj_xI, Z.pow_add_r, Z.pow_1_r by lia.
    rewrite <- Z.add_diag, Z.pow_add_r by lia. reflexivity.
  - rewrite Z.square_spec, IH, <- Zmult_mod. rewrite Pos2Z.inj_xO, <- Z.add_diag, Z.pow_add_r by lia. reflexivity.
  - now rewrite Z.pow_1_r.
Qed.
Lemma pow_modz_spec n a e : 0 < e -> pow_modz n a e = (a ^ e) mod n.
Proof. intros H. destruct e as [|e|e]; try lia. apply pow_mod_spec. Qed.
Lemma pow_mod_pow n a i j : 0 < n -> 0 <= i -> 0 <= j -> (((a ^ i) mod n) ^ j) mod n = (a ^ (i * j)) mod n.
Proof. intros Hn Hi Hj. rewrite Z.pow_mul_r by lia. symmetry. apply Zpower_mod. lia. Qed.

(** The certificate: primes [q] with exponents [e], the powers pairwise coprime, with product [F]; and an [a] with
    [a ^ F = 1] modulo [n] and [a ^ (F / q) - 1] coprime to [n] for each [q].  With the product [Q] of the primes,
    [chain] starts from [a ^ (F / Q)] and raises it to one prime after the other. *)
Definition product (l : list (Z * nat)) : Z := fold_right (fun f acc => fst f ^ Z.of_nat (snd f) * acc) 1 l.
Definition radical (l : list (Z * nat)) : Z := fold_right (fun f acc => fst f * acc) 1 l.
Fixpoint chain (n F c : Z) (l : list (Z * nat)) : bool :=
  match l with
  | [] => c =? 1
  | (q, e) :: l =>
    (1 <? q) && (0 <? Z.of_nat e) && (F mod q ^ Z.of_nat e =? 0) &&
    (Z.gcd (pow_modz n c (radical l) - 1) n =? 1) && chain n F (pow_modz n c q) l
  end.
Fixpoint coprime_all (l : list (Z * nat)) : bool :=
  match l with
  | [] => true
  | (q, e) :: l => (Z.gcd (q ^ Z.of_nat e) (product l) =? 1) && coprime_all l
  end.
Definition certificate (n a : Z) (l : list (Z * nat)) : bool :=
  let F := product l in
  let Q := radical l in
  (1 <? n) && (0 <? Q) && (1 <? F) && (F mod Q =? 0) && chain n F (pow_modz n a (F / Q)) l && coprime_all l.
Definition pocklington (n a : Z) (l : list (Z * nat)) : bool :=
  certificate n a l && (n <? product l * product l).

Lemma chain_radical n F l : forall c, chain n F c l = true -> 0 < radical l.
Proof.
  induction l as [|[q e] l IH]; intros c H; cbn [radical fold_right fst]; [lia|]. cbn [chain] in H. rewrite !andb_true_iff in H.
  destruct H as ((((Hq & _) & _) & _) & H). apply Z.ltb_lt in Hq. apply IH in H. fold (radical l). nia.
Qed.
Lemma chain_spec n a F : 1 < n -> forall l m c, 0 < m -> c = (a ^ m) mod n -> m * radical l = F -> chain n F c l = true ->
  (a ^ F) mod n = 1 /\ forall q e, In (q, e) l -> 1 < q /\ (0 < e)%nat /\ (q ^ Z.of_nat e | F) /\ 0 < F / q /\ F / q * q = F /\
    Z.gcd ((a ^ (F / q)) mod n - 1) n = 1.
Proof.
  intros Hn. induction l as [|[q e] l IH]; intros m c Hm Hc HF H; cbn [radical fold_right fst] in HF; cbn [chain] in H.
  - apply Z.eqb_eq in H. split; [|intros q e []]. rewrite <- H, Hc. f_equal. f_equal. lia.
  - rewrite !andb_true_iff in H. destruct H as ((((Hq & He) & Hd) & Hg) & H). fold (radical l) in HF.
    apply Z.ltb_lt in Hq. apply Z.ltb_lt in He. apply Z.eqb_eq in Hd. apply Z.eqb_eq in Hg. pose proof (chain_radical _ _ _ _ H) as Hr.
    rewrite pow_modz_spec, Hc, pow_mod_pow in Hg by lia.
    assert (EF : F / q = m * radical l) by (symmetry; apply Z.div_unique_exact; [lia|rewrite <- HF; ring]).
    rewrite pow_modz_spec, Hc, pow_mod_pow in H by lia.
    destruct (IH (m * q) _ ltac:(nia) eq_refl ltac:(rewrite <- HF; ring) H) as [HU HW]. split; [exact HU|].
    intros q' e' [E|Hin]; [injection E as <- <-|now apply HW]. rewrite EF. split; [exact Hq|]. split; [lia|].
    split; [apply Z.mod_divide; [apply Z.pow_nonzero; lia|exact Hd]|]. split; [now apply Z.mul_pos_pos|]. split; [rewrite <- HF; ring|exact Hg].
Qed.

(** The order of [a] modulo any divisor of [n] is a multiple of [F]. *)
Lemma certificate_order n a l : (forall f, In f l -> prime (fst f)) -> certificate n a l = true ->
  1 < n /\ 1 < product l /\ forall p, 1 < p -> (p | n) ->
    exists d, (0 < d)%nat /\ (a ^ Z.of_nat d) mod p = 1 /\ (forall i, (0 < i < d)%nat -> (a ^ Z.of_nat i) mod p <> 1) /\ (product l | Z.of_nat d).
Proof.
  intros Hl H. unfold certificate in H. cbv zeta in H. set (F := product l) in *. set (Q := radical l) in *.
  rewrite !andb_true_iff in H. destruct H as (((((H1 & HQ) & HF0) & HQn) & Hw) & Hc).
  apply Z.ltb_lt in H1. apply Z.ltb_lt in HQ. apply Z.ltb_lt in HF0. apply Z.eqb_eq in HQn.
  assert (HQd : F = Q * (F / Q)) by (apply Z.div_exact; lia).
  assert (Hpos : 0 < F / Q) by (clear - HQd HQ HF0; nia).
  destruct (chain_spec n a F H1 l (F / Q) _ Hpos (pow_modz_spec n a (F / Q) Hpos) ltac:(fold Q; lia) Hw) as [Hunit Hwit].
  clear Hw. split; [exact H1|]. split; [exact HF0|].
  { intros p Hp1 Hpn.
    assert (Hunit' : (a ^ Z.of_nat (Z.to_nat F)) mod p = 1).
    { rewrite Z2Nat.id by lia. rewrite (Zmod_div_mod p n) by (try assumption; lia). rewrite Hunit. apply Z.mod_1_l. exact Hp1. }
    destruct (least_unit a p (Z.to_nat F) ltac:(lia) Hunit') as (d & Hd0 & Hd & Hleast).
    assert (Hdn : (Z.of_nat d | F)).
    { destruct (order_divides a p Hp1 d _ Hd0 Hd Hleast Hunit') as [k Hk]. exists (Z.of_nat k). rewrite <- Nat2Z.inj_mul, <- Hk. lia. }
    assert (Hqd : forall f, In f l -> (fst f ^ Z.of_nat (snd f) | Z.of_nat d)).
    { intros [q e] Hf. cbn [fst snd]. destruct (Hwit q e Hf) as (Hq1 & He & Hdq & Hmpos & Hm0 & Hg).
      apply (prime_power_divides q e _ F); [apply (Hl _ Hf)|lia|exact Hdq|exact He|exact Hdn|].
      intros [k Hk]. set (m := F / q) in *.
      assert (Hk0 : 0 <= k) by (clear - Hk Hmpos Hd0; nia).
      assert (Hm : (a ^ m) mod p = 1).
      { rewrite Hk. replace (k * Z.of_nat d) with (Z.of_nat (Z.to_nat k * d)) by (rewrite Nat2Z.inj_mul, Z2Nat.id by lia; reflexivity).
        apply (unit_mul a p Hp1). exact Hd. }
      assert (Hpd : (p | (a ^ m) mod n - 1)).
      { apply Z.mod_divide; [lia|]. rewrite Zminus_mod, <- (Zmod_div_mod p n), Hm by (try assumption; lia).
        rewrite (Z.mod_1_l p Hp1). reflexivity. }
      pose proof (Z.gcd_greatest _ _ _ Hpd Hpn) as Hp. rewrite Hg in Hp. apply Z.divide_1_r_nonneg in Hp; lia. }
    assert (HFd : (F | Z.of_nat d)).
    { unfold F, product. clear - Hqd Hc. induction l as [|[q e] l IH]; cbn [fold_right]; [apply Z.divide_1_l|].
      cbn [coprime_all] in Hc. apply andb_true_iff in Hc. destruct Hc as [Hg Hc]. cbn [fst snd]. apply coprime_product_divides.
      - apply Zgcd_1_rel_prime. now apply Z.eqb_eq.
      - apply (Hqd (q, e)). now left.
      - apply IH; [exact Hc|]. intros f Hf. apply Hqd. now right. }
    exists d. auto. }
Qed.

Theorem pocklington_prime n a l : (forall f, In f l -> prime (fst f)) -> pocklington n a l = true -> prime n.
Proof.
  intros Hl H. apply andb_true_iff in H as [H HF]. apply Z.ltb_lt in HF.
  destruct (certificate_order n a l Hl H) as (H1 & HF0 & Hord). set (F := product l) in *.
  assert (Hdiv : forall p, 1 < p -> (p | n) -> F <= p).
  { intros p Hp1 Hpn. destruct (Hord p Hp1 Hpn) as (d & Hd0 & Hd & Hleast & HFd).
    pose proof (order_le a p Hp1 d Hd0 Hd Hleast) as Hle. apply Z.divide_pos_le in HFd; lia. }
  apply prime_alt. split; [exact H1|]. intros p Hp Hpn.
  pose proof (Hdiv p ltac:(lia) Hpn) as Hp'. destruct Hpn as [k Hk].
  assert (Hk' : F <= k) by (apply Hdiv; [nia|exists p; lia]).
  nia.
Qed.

(** ** Fermat's theorem *)
Definition prod (l : list Z) : Z := fold_right Z.mul 1 l.
Lemma prod_perm l l' : Permutation l l' -> prod l = prod l'.
Proof. induction 1; cbn [prod fold_right]; try fold (prod l); try fold (prod l'); try lia. Qed.

Section Fermat.
  Variables (p a : Z).
  Hypothesis Hp : prime p.
  Hypothesis Ha : ~ (p | a).
  Let L := map Z.of_nat (seq 1 (Z.to_nat (p - 1))).
  Let M := map (fun x => (a * x) mod p) L.

  Lemma p_gt1 : 1 < p.
  Proof. destruct Hp; assumption. Qed.
  Lemma in_L x : In x L <-> 1 <= x < p.
  Proof.
    pose proof p_gt1. unfold L. rewrite in_map_iff. split.
    - intros (i & <- & Hi). apply in_seq in Hi. lia.
    - intros Hx. exists (Z.to_nat x). split; [lia|]. apply in_seq. lia.
  Qed.
  Lemma prime_not_divides x : 1 <= x < p -> ~ (p | x).
  Proof. intros Hx H. apply Z.divide_pos_le in H; lia. Qed.
  Lemma incl_M : incl M L.
  Proof.
    intros y Hy. apply in_map_iff in Hy as (x & <- & Hx). apply in_L in Hx. apply in_L. pose proof p_gt1.
    pose proof (Z.mod_pos_bound (a * x) p ltac:(lia)). enough ((a * x) mod p <> 0) by lia.
    intros E. apply Z.mod_divide in E; [|lia]. apply prime_mult in E; [|exact Hp]. destruct E as [E|E]; [exact (Ha E)|exact (prime_not_divides x Hx E)].
  Qed.
  Lemma nodup_L : NoDup L.
  Proof. unfold L. apply FinFun.Injective_map_NoDup; [intros i j; lia|apply seq_NoDup]. Qed.
  Lemma nodup_map {A B} (f : A -> B) l : NoDup l -> (forall x y, In x l -> In y l -> f x = f y -> x = y) -> NoDup (map f l).
  Proof.
    induction 1 as [|x l Hx Hl IH]; intros Hf; cbn [map]; constructor.
    - intros Hin. apply in_map_iff in Hin as (y & E & Hy). apply Hx. rewrite (Hf x y); [exact Hy|now left|now right|congruence].
    - apply IH. intros u v Hu Hv. apply Hf; now right.
  Qed.
  Lemma nodup_M : NoDup M.
  Proof.
    apply nodup_map; [apply nodup_L|]. intros x y Hx Hy E. apply in_L in Hx, Hy. pose proof p_gt1.
    assert (Hd : (p | a * (x - y))).
    { apply Z.mod_divide; [lia|]. rewrite Z.mul_sub_distr_l, Zminus_mod, E, Z.sub_diag. apply Z.mod_0_l. lia. }
    apply prime_mult in Hd; [|exact Hp]. destruct Hd as [Hd|[k Hk]]; [contradiction|]. assert (k = 0) by (clear - Hk Hx Hy; assert (-1 < k) by nia; nia). lia.
  Qed.
  Lemma prod_scaled l : prod (map (fun x => (a * x) mod p) l) mod p = (a ^ Z.of_nat (length l) * prod l) mod p.
  Proof.
    pose proof p_gt1. induction l as [|x l IH]; [reflexivity|]. cbn [map prod fold_right length]. fold (prod l). fold (prod (map (fun x => (a * x) mod p) l)).
    rewrite Zmult_mod_idemp_l, <- Zmult_mod_idemp_r, IH, Zmult_mod_idemp_r. f_equal. rewrite Nat2Z.inj_succ, Z.pow_succ_r by lia. ring.
  Qed.
  Lemma prod_L : rel_prime p (prod L).
  Proof.
    pose proof in_L as H. clearbody L. clear M. assert (Hl : forall x, In x L -> 1 <= x < p) by (intros x Hx; now apply H). clear H.
    induction L as [|x l IH]; [apply rel_prime_sym, rel_prime_1|]. cbn [prod fold_right]. apply rel_prime_mult.
    - apply prime_rel_prime; [exact Hp|]. apply prime_not_divides. apply Hl. now left.
    - apply IH. intros y Hy. apply Hl. now right.
  Qed.
  Theorem fermat : (a ^ (p - 1)) mod p = 1.
  Proof.
    pose proof p_gt1 as H1.
    assert (HM : prod M mod p = prod L mod p).
    { f_equal. apply prod_perm. apply NoDup_Permutation_bis; [apply nodup_M|unfold M; rewrite map_length; lia|apply incl_M]. }
    unfold M in HM. rewrite prod_scaled in HM.
    assert (Hlen : Z.of_nat (length L) = p - 1) by (unfold L; rewrite map_length, seq_length; lia). rewrite Hlen in HM.
    assert (Hd : (p | (a ^ (p - 1) - 1) * prod L)).
    { apply Z.mod_divide; [lia|]. rewrite Z.mul_sub_distr_r, Z.mul_1_l, Zminus_mod, HM, Z.sub_diag. apply Z.mod_0_l. lia. }
    rewrite Z.mul_comm in Hd. apply Gauss in Hd; [|exact prod_L].
    destruct Hd as [k E]. replace (a ^ (p - 1)) with (1 + k * p) by lia. rewrite Z.mod_add by lia. now apply Z.mod_1_l.
  Qed.
End Fermat.

(** ** The test for which a third of the digits of [n - 1] has to be factored *)
Definition is_square (d : Z) : bool := (0 <=? d) && (Z.sqrt d * Z.sqrt d =? d).
Definition thirds (n F : Z) : bool :=
  let R := (n - 1) / F in
  ((n - 1) mod F =? 0) && (n <? F * F * F) && negb (is_square ((R mod F) * (R mod F) - 4 * (R / F))).

Theorem thirds_prime n a l : (forall f, In f l -> prime (fst f)) -> certificate n a l = true -> thirds n (product l) = true -> prime n.
Proof.
  intros Hl Hc Ht. destruct (certificate_order n a l Hl Hc) as (H1 & HF & Hord). set (F := product l) in *. clearbody F.
  assert (Hpr : forall p, prime p -> (p | n) -> (F | p - 1)).
  { intros p Hp Hpn. assert (Hp1 : 1 < p) by (destruct Hp; assumption). destruct (Hord p Hp1 Hpn) as (d & Hd0 & Hd & Hleast & HFd).
    assert (Hna : ~ (p | a)).
    { intros Hpa. assert (H0 : (a ^ Z.of_nat d) mod p = 0); [|lia]. apply Z.mod_divide; [lia|].
      replace (Z.of_nat d) with (Z.succ (Z.of_nat d - 1)) by lia. rewrite Z.pow_succ_r by lia. now apply Z.divide_mul_l. }
    destruct (order_divides a p Hp1 d (Z.to_nat (p - 1)) Hd0 Hd Hleast) as [k Hk].
    { rewrite Z2Nat.id by lia. now apply fermat. }
    destruct HFd as [m Hm]. exists (Z.of_nat k * m). nia. }
  assert (Hdv : forall u, 0 < u -> (u | n) -> (F | u - 1)).
  { intros u Hu. pattern u. apply Zlt_0_rec; [|lia]. clear u Hu. intros u IH Hu Hun. destruct (Z.eq_dec u 0) as [->|Hu0].
    { destruct Hun as [k Hk]. lia. }
    destruct (Z.eq_dec u 1) as [->|Hu1]; [exists 0; lia|]. destruct (prime_dec u) as [Hup|Hup]; [now apply Hpr|].
    destruct (not_prime_divide u ltac:(lia) Hup) as (v & Hv & w & Hw).
    assert (Hw0 : 0 < w < u) by nia.
    destruct (IH v ltac:(lia)) as [x Hx]; [apply Z.divide_trans with u; [exists w; lia|exact Hun]|].
    destruct (IH w ltac:(lia)) as [y Hy]; [apply Z.divide_trans with u; [exists v; lia|exact Hun]|].
    exists (x * y * F + x + y). replace u with ((1 + y * F) * (1 + x * F)) by (rewrite Hw; f_equal; lia). ring. }
  destruct (prime_dec n) as [Hn|Hn]; [exact Hn|]. exfalso. destruct (not_prime_divide n H1 Hn) as (u & Hu & w & Hw).
  assert (Hw0 : 1 < w < n) by nia.
  destruct (Hdv u ltac:(lia)) as [x Hx]; [exists w; exact Hw|]. destruct (Hdv w ltac:(lia)) as [y Hy]; [exists u; lia|].
  assert (Hx0 : 1 <= x) by nia. assert (Hy0 : 1 <= y) by nia.
  unfold thirds in Ht. cbv zeta in Ht. rewrite !andb_true_iff in Ht. destruct Ht as ((_ & H3) & Hs). apply Z.ltb_lt in H3.
  assert (En : n - 1 = (x * y * F + (x + y)) * F).
  { replace n with ((1 + y * F) * (1 + x * F)) by (rewrite Hw; f_equal; lia). ring. }
  assert (Hxy : x * y < F).
  { apply Z.nle_gt. intros Hge. assert (x * y * F * F >= F * F * F) by nia. nia. }
  assert (Hsum : x + y < F).
  { apply Z.nle_gt. intros Hge. assert (x + y <= x * y + 1) by nia. assert (x + y = F /\ x * y = F - 1) as [Ea Eb] by lia.
    rewrite Ea, Eb in En. nia. }
  rewrite En, Z.div_mul in Hs by lia.
  assert (Eq : (x * y * F + (x + y)) / F = x * y) by (rewrite Z.add_comm, Z.div_add, Z.div_small by lia; lia).
  assert (Er : (x * y * F + (x + y)) mod F = x + y) by (rewrite Z.add_comm, Z.mod_add, Z.mod_small by lia; reflexivity).
  rewrite Eq, Er in Hs. unfold is_square in Hs.
  replace ((x + y) * (x + y) - 4 * (x * y)) with (Z.abs (x - y) * Z.abs (x - y)) in Hs by (rewrite <- Z.abs_square || idtac; nia).
  rewrite Z.sqrt_square, Z.eqb_refl in Hs by lia. rewrite (proj2 (Z.leb_le 0 _) (Z.square_nonneg (Z.abs (x - y)))) in Hs. discriminate Hs.
Qed.


(** Small odd primes, by trial division. *)
Fixpoint no_divisor (fuel : nat) (d n : Z) : bool :=
  match fuel with
  | O => n <? d * d
  | S fuel => if n mod d =? 0 then false else if n <? d * d then true else no_divisor fuel (d + 2) n
  end.
Lemma no_divisor_spec fuel : forall d n, 2 <= d -> Z.odd n = true -> Z.odd d = true -> no_divisor fuel d n = true ->
  forall m, d <= m -> m * m <= n -> ~ (m | n).
Proof.
  induction fuel as [|fuel IH]; intros d n Hd Hn Ho H m Hm Hmn; cbn [no_divisor] in H.
  - apply Z.ltb_lt in H. nia.
  - destruct (Z.eqb_spec (n mod d) 0) as [E|E]; [discriminate|]. destruct (Z.ltb_spec n (d * d)) as [L|L]; [nia|].
    intros Hdiv. assert (Hmo : Z.odd m = true).
    { destruct Hdiv as [k ->]. rewrite Z.odd_mul in Hn. apply andb_true_iff in Hn. apply Hn. }
    destruct (Z.eq_dec m d) as [->|Hne]; [apply Z.mod_divide in Hdiv; lia|].
    destruct (Z.eq_dec m (d + 1)) as [->|Hne1].
    + rewrite Z.odd_add, Ho in Hmo. discriminate Hmo.
    + revert Hdiv. apply (IH (d + 2)); [lia|exact Hn| |exact H|lia|exact Hmn]. rewrite Z.odd_add, Ho. reflexivity.
Qed.
Lemma trial_prime fuel n : 1 < n -> Z.odd n = true -> no_divisor fuel 3 n = true -> prime n.
Proof.
  intros H1 Hn H. apply prime_alt. split; [exact H1|].
  assert (Hs : forall m, 1 < m -> m * m <= n -> ~ (m | n)).
  { intros m Hm Hmn Hdiv. destruct (Z.eq_dec m 2) as [->|H2].
    - destruct Hdiv as [k ->]. rewrite Z.odd_mul, andb_comm in Hn. discriminate Hn.
    - revert Hdiv. apply (no_divisor_spec fuel 3 n ltac:(lia) Hn eq_refl H m); [lia|exact Hmn]. }
  intros m Hm [k Hk]. destruct (Z.le_gt_cases m k) as [Hle|Hgt].
  - apply (Hs m); [lia|nia|exists k; exact Hk].
  - apply (Hs k); [nia|nia|exists m; lia].
Qed.

(** ** The orders of the groups of BLS12-381 and BLS12-377
    (ark_bls12_381::Fr and ark_bls12_377::Fr, the scalar fields that the tests, examples and benchmarks use) *)
Definition r381 : Z := 0x73eda753299d7d483339d80809a1d80553bda402fffe5bfeffffffff00000001.
Definition r377 : Z := 0x12ab655e9a2ca55660b44d1e5c37b00159aa76fed00000010a11800000000001.
Definition x377 : Z := 0x8508c00000000001.

Lemma prime_r381 : prime r381.
Proof.
  apply (thirds_prime r381 0x6908ae29bdbede837d9ad54779349f87341af3d917b590a260cc3e8d258d2f54 [(254760293, 2%nat); (2, 32%nat)]).
  - intros f [<-|[<-|[]]]; cbn [fst]; [apply (trial_prime (4 * 2000)); vm_compute; reflexivity|exact prime_2].
  - vm_compute. reflexivity.
  - vm_compute. reflexivity.
Qed.
Lemma prime_x377 : prime x377.
Proof.
  apply (pocklington_prime x377 0x5652d2b203d2e20 [(2, 46%nat)]).
  - intros f [<-|[]]. exact prime_2.
  - vm_compute. reflexivity.
Qed.
Lemma prime_r377 : prime r377.
Proof.
  apply (thirds_prime r377 0x73eed40e49c37b91cff1ab55531a9b8cf7181711c6d0155fdcfc63081a042d8 [(x377, 1%nat); (2, 46%nat)]).
  - intros f [<-|[<-|[]]]; [exact prime_x377|exact prime_2].
  - vm_compute. reflexivity.
  - vm_compute. reflexivity.
Qed.

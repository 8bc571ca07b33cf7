From Coq Require Import Permutation Ring_theory ZArithRing.
From Verif Require Import Base BaseLemmas RSum DirichletModel DirichletProof DirichletMult.

(** C32.  Every entry of the sieve is the smallest prime factor of its index, and
    [Primes] is the increasing list of all primes up to [n], as long as [2n+2] is an
    [int]. *)
Theorem C32_sieve : forall w n, (Z.of_nat (2 * n + 2) < 2 ^ (w - 1))%Z ->
  exists p, sieve w n = Some p /\ length p = n + 1 /\
    forall k, 2 <= k <= n -> exists x, nth_error p k = Some x /\ smallest_prime_factor k x.
Proof.
  intros w n Hw. destruct (sieve_ok w n Hw) as (p & E & L & _ & _ & G). exists p. split; [auto|]. split; [auto|].
  intros k Hk. destruct (G k Hk) as (x & Gx & Lx). exists x. split; [exact Gx|]. apply lpf_spf; auto. lia.
Qed.
Theorem C32_primes : forall w n, (Z.of_nat (2 * n + 2) < 2 ^ (w - 1))%Z -> exists ps, primes w n = Some ps /\ primes_upto n ps.
Proof. exact primes_ok. Qed.
(** Primality read from the table is exact. *)
Theorem C32_primality : forall w n, (Z.of_nat (2 * n + 2) < 2 ^ (w - 1))%Z ->
  exists p, sieve w n = Some p /\ forall k, 2 <= k <= n -> (nth_error p k = Some k <-> is_prime k).
Proof.
  intros w n Hw. destruct (sieve_ok w n Hw) as (p & E & L & _ & _ & G). exists p. split; [auto|]. intros k Hk.
  destruct (G k Hk) as (x & Gx & Lx). unfold get in Gx. rewrite Gx, <- (lpf_prime_iff k x) by (auto; lia). split; congruence.
Qed.
(** Without the bound the step [j += i] or the start [i * 2] overflows. *)
Theorem C32_overflow_refuted : ~ forall w n, (Z.of_nat (n + 1) < 2 ^ (w - 1))%Z -> exists p, sieve w n = Some p.
Proof. intros H. destruct (H 5%Z 12) as (p & E); [reflexivity|]. vm_compute in E. discriminate. Qed.

Example C32_example : sieve 32 30 = Some [0; 1; 2; 3; 2; 5; 2; 7; 2; 3; 2; 11; 2; 13; 2; 3; 2; 17; 2; 19; 2; 3; 2; 23; 2; 5; 2; 3; 2; 29; 2].
Proof. vm_compute. reflexivity. Qed.
Example C32_primes_example : primes 32 50 = Some [2; 3; 5; 7; 11; 13; 17; 19; 23; 29; 31; 37; 41; 43; 47].
Proof. vm_compute. reflexivity. Qed.

(** C33.  Every coefficient, for any coefficient type and operations, the terms
    being added by increasing first index. *)
Theorem C33_dirichlet : forall (T : Type) (zero : T) (add mul : T -> T -> T) (a b : list T), length a <= length b ->
  exists c, dirichlet zero add mul a b = Some c /\ length c = length a /\
    forall k, 1 <= k < length a -> nth_error c k = Some (dsum zero add mul a b k).
Proof.
  intros T zero add mul a b Hb. destruct (dirichlet_ok T zero add mul a b Hb) as (c & E & L & G). exists c. split; [auto|]. split; [auto|].
  intros k Hk. rewrite (nth_error_nth' c zero) by lia. rewrite G by lia. destruct (Nat.eqb_spec k 0); [lia|auto].
Qed.
Lemma Zsr : semi_ring_theory 0%Z 1%Z Z.add Z.mul eq.
Proof. constructor; intros; ring. Qed.
Lemma prod_nodup (l r : list nat) : NoDup l -> NoDup r -> NoDup (list_prod l r).
Proof.
  intros Hl Hr. assert (E : list_prod l r = flat_map (fun x => map (fun y => (x, y)) r) l).
  { clear Hl. induction l as [|x l IH]; auto. cbn [list_prod flat_map]. now rewrite IH. }
  rewrite E. apply NoDup_flat_map; auto.
  - intros x _. apply NoDup_map_inj; auto. congruence.
  - intros x x' [u v] _ _ H1 H2. apply in_map_iff in H1 as (y & H1 & _). apply in_map_iff in H2 as (y' & H2 & _). congruence.
Qed.
(** Over the integers, as a sum over all pairs with product [k]. *)
Theorem C33_pairs : forall (a b : list Z), length a <= length b ->
  exists c, dirichlet 0%Z Z.add Z.mul a b = Some c /\
    forall k, 1 <= k < length a -> nth_error c k =
      Some (fold_right Z.add 0%Z (map (fun '(i, j) => nth i a 0 * nth j b 0)%Z
             (filter (fun '(i, j) => i * j =? k) (list_prod (seq 1 k) (seq 1 k))))).
Proof.
  intros a b Hb. destruct (C33_dirichlet Z 0%Z Z.add Z.mul a b Hb) as (c & E & L & G). exists c. split; [auto|].
  intros k Hk. rewrite (G k Hk). f_equal. unfold dsum.
  rewrite (fold_left_sum Z 0%Z 1%Z Z.add Z.mul Zsr). rewrite Z.add_0_l.
  transitivity (sum Z 0%Z Z.add (map (fun i => (i, k / i)) (divisors k)) (fun '(i, j) => nth i a 0 * nth j b 0)%Z); [now rewrite sum_map|].
  transitivity (sum Z 0%Z Z.add (filter (fun '(i, j) => i * j =? k) (list_prod (seq 1 k) (seq 1 k))) (fun '(i, j) => nth i a 0 * nth j b 0)%Z).
  - apply (sum_same _ _ _ _ _ Zsr).
    + apply NoDup_map_inj; [congruence|]. apply NoDup_filter, seq_NoDup.
    + apply NoDup_filter, prod_nodup; apply seq_NoDup.
    + intros [i j]. rewrite in_map_iff, filter_In, in_prod_iff, !in_seq, Nat.eqb_eq. split.
      * intros (d & Ed & Hd). injection Ed as -> <-. apply divisors_in in Hd; [|lia]. destruct Hd as (q & Eq).
        assert (i <> 0) by (intros ->; lia). rewrite Eq. rewrite Nat.div_mul by auto. destruct q; nia.
      * intros [[Hi Hj] Ek]. exists i. split; [f_equal; subst k; rewrite Nat.mul_comm; apply Nat.div_mul; lia|]. apply divisors_in; [lia|]. exists j. lia.
  - clear. induction (filter _ _) as [|x l IH]; auto. cbn [map fold_right]. rewrite sum_cons, IH. reflexivity.
Qed.
Example C33_example : dirichlet 0%Z Z.add Z.mul [0; 1; 1; 1; 1; 1; 1]%Z [7; 1; 2; 3; 4; 5; 6]%Z = Some [0; 1; 3; 4; 7; 6; 12]%Z.
Proof. reflexivity. Qed.

(** C50.  The prime-by-prime convolution agrees with the plain one for every
    multiplicative first sequence, over any commutative semiring; a short second
    sequence counts as padded with zeros. *)
Theorem C50_multiplicative : forall (T : Type) (zero one : T) (add mul : T -> T -> T), semi_ring_theory zero one add mul eq ->
  forall w (a b : list T), (Z.of_nat (2 * length a) < 2 ^ (w - 1))%Z -> 0 < length a -> multiplicative zero mul one a ->
  exists c, dirichlet_mult zero add mul w a b = Some c /\ length c = length a /\
    forall k, 1 <= k < length a -> nth_error c k = Some (dsum zero add mul a b k).
Proof.
  intros T zero one add mul SR w a b Hw Ha M. destruct (mult_ok T zero one add mul SR w a b Hw Ha M) as (c & E & L & G).
  exists c. split; [auto|]. split; [auto|]. intros k Hk. rewrite (nth_error_nth' c zero) by lia. now rewrite G.
Qed.
(** An empty first sequence makes the sieve write outside its table. *)
Theorem C50_empty_refuted : forall w (b : list Z), dirichlet_mult 0%Z Z.add Z.mul w [] b = None.
Proof. reflexivity. Qed.
(** The sum of divisors of each number: [a = 1] is multiplicative. *)
Example C50_example : multiplicative 0%Z Z.mul 1%Z (0 :: repeat 1 12)%Z /\
  dirichlet_mult 0%Z Z.add Z.mul 32 (0 :: repeat 1 12)%Z [0; 1; 2; 3; 4; 5; 6; 7; 8; 9; 10; 11; 12]%Z =
  Some [0; 1; 3; 4; 7; 6; 12; 8; 15; 13; 18; 12; 28]%Z.
Proof.
  split; [|vm_compute; reflexivity]. split; [reflexivity|]. intros x y Hx Hy _ L.
  assert (H : forall k, 0 < k -> k < 13 -> nth k (0 :: repeat 1 12)%Z 0%Z = 1%Z) by (intros [|k] Hk Hk2; [lia|cbn [nth]; apply nth_error_nth, nth_error_repeat; lia]).
  change (length _) with 13 in L. rewrite !H; auto; nia.
Qed.

Print Assumptions C32_sieve.
Print Assumptions C32_primes.
Print Assumptions C32_primality.
Print Assumptions C32_overflow_refuted.
Print Assumptions C33_dirichlet.
Print Assumptions C33_pairs.
Print Assumptions C50_multiplicative.
Print Assumptions C50_empty_refuted.

(** Elements of given order modulo a prime; existence of generators. *)
From Coq Require Import Znumtheory Zpow_facts.
From Verif Require Import Base BaseLemmas NumTheory.
Local Open Scope Z_scope.
Ltac Zify.zify_post_hook ::= idtac.

Lemma prime_factor n : 1 < n -> exists q, prime q /\ (q | n).
Proof.
  intros H. assert (0 <= n) as H0 by lia. revert H. pattern n. apply Z_lt_induction; auto.
  clear n H0. intros n IH Hn. destruct (prime_dec n) as [P|P].
  - exists n. split; auto. apply Z.divide_refl.
  - apply not_prime_divide in P; auto. destruct P as (d & Hd & D).
    destruct (IH d) as (q & Pq & Dq); [lia|lia|]. exists q. split; auto. eapply Z.divide_trans; eauto.
Qed.

Section Gen.
Variable p : Z.
Hypothesis P : prime p.
Local Notation "a == b" := (eqm p a b) (at level 70).

Lemma pow_one_mul y i k : 0 <= i -> 0 <= k -> y ^ i == 1 -> y ^ (i * k) == 1.
Proof.
  intros Hi Hk E. rewrite Z.pow_mul_r by auto. rewrite <- (Z.pow_1_l k) by auto. now apply eqm_pow.
Qed.

Lemma pow_gcd y : forall j, 0 <= j -> forall i, 0 <= i -> y ^ i == 1 -> y ^ j == 1 -> y ^ Z.gcd i j == 1.
Proof.
  intros j Hj. pattern j. apply Z_lt_induction; auto. clear j Hj.
  intros j IH i Hi Ei Ej. destruct (Z.lt_ge_cases j 0) as [C|C].
  { rewrite Z.pow_neg_r in Ej by lia. exfalso. pose proof (p_ge2 _ P).
    destruct Ej as [k K]. assert (k = 0 \/ k <= -1 \/ 1 <= k) as [->|[?|?]] by lia; nia. }
  destruct (Z.eq_dec j 0) as [->|].
  - rewrite Z.gcd_0_r, Z.abs_eq; auto.
  - rewrite Z.gcd_comm, <- Z.gcd_mod by auto.
    assert (B : 0 <= i mod j < j) by (apply Z.mod_pos_bound; lia).
    rewrite Z.gcd_comm. apply IH; auto.
    assert (K : y ^ i == y ^ (i mod j)).
    { rewrite (Z.div_mod i j) at 1 by auto. pose proof (Z.div_pos i j). rewrite Z.pow_add_r by nia.
      replace (y ^ (i mod j)) with (1 * y ^ (i mod j)) at 2 by ring.
      apply eqm_mul; [|apply eqm_refl]. apply pow_one_mul; auto. lia. }
    eapply eqm_trans; [apply eqm_sym, K|auto].
Qed.

(** [a] has order exactly [D], in the form that only tests prime divisors. *)
Definition ord (a D : Z) : Prop := a ^ D == 1 /\ forall q, prime q -> (q | D) -> ~ a ^ (D / q) == 1.

Lemma ord_below a D k : 0 < D -> ord a D -> 0 < k < D -> ~ a ^ k == 1.
Proof.
  intros HD (E & N) Hk K.
  set (d := Z.gcd k D). assert (Ed : a ^ d == 1) by (apply pow_gcd; auto; lia).
  assert (Hd : 0 < d).
  { pose proof (Z.gcd_nonneg k D). destruct (Z.eq_dec d 0) as [Z0|]; [|unfold d in *; lia].
    apply Z.gcd_eq_0 in Z0. lia. }
  destruct (Z.gcd_divide_r k D) as [c Hc]. fold d in Hc.
  assert (d <= k).
  { apply Z.divide_pos_le; [lia|]. apply Z.gcd_divide_l. }
  assert (1 < c) by nia.
  destruct (prime_factor c) as (q & Pq & e & He); auto. pose proof (prime_ge_2 _ Pq).
  apply (N q); auto.
  - exists (d * e). rewrite Hc, He. ring.
  - replace (D / q) with (d * e). 2:{ rewrite Hc, He. replace (e * q * d) with (d * e * q) by ring. now rewrite Z.div_mul by lia. }
    apply pow_one_mul; auto; nia.
Qed.

Lemma ord_prod a A b B : 0 < A -> 0 < B -> rel_prime A B -> ord a A -> ord b B -> ord (a * b) (A * B).
Proof.
  intros HA HB R.
  assert (K : forall a A b B, 0 < A -> 0 < B -> rel_prime A B -> ord a A -> ord b B ->
     forall q, prime q -> (q | A) -> ~ (a * b) ^ (A * B / q) == 1).
  { clear - P. intros a A b B HA HB R (Ea & Na) (Eb & Nb) q Pq [c Hc] K. pose proof (prime_ge_2 _ Pq).
    assert (Hc0 : 0 < c) by nia.
    assert (Q1 : A / q = c) by (rewrite Hc; apply Z.div_mul; lia).
    assert (Q2 : A * B / q = c * B).
    { rewrite Hc. replace (c * q * B) with (c * B * q) by ring. apply Z.div_mul; lia. }
    rewrite Q2 in K. rewrite Z.pow_mul_l in K.
    assert (Y : (a ^ c) ^ B == 1).
    { rewrite <- Z.pow_mul_r by lia. eapply eqm_trans; [|apply K].
      replace (a ^ (c * B)) with (a ^ (c * B) * 1) at 1 by ring. apply eqm_mul; [apply eqm_refl|].
      rewrite Z.mul_comm. apply eqm_sym, pow_one_mul; auto; lia. }
    assert (Y2 : (a ^ c) ^ q == 1) by (rewrite <- Z.pow_mul_r by lia; now rewrite <- Hc).
    assert (G : Z.gcd q B = 1).
    { apply Zgcd_1_rel_prime. apply prime_rel_prime; auto. intros D.
      assert (G : (q | 1)) by (apply R; [exists c; auto|auto]).
      apply Z.divide_pos_le in G; lia. }
    apply (Na q); auto; [now exists c|]. rewrite Q1.
    pose proof (pow_gcd (a ^ c) B ltac:(lia) q ltac:(lia) Y2 Y) as Y3. rewrite G, Z.pow_1_r in Y3. exact Y3. }
  intros OA OB. split.
  - rewrite Z.pow_mul_l. replace 1 with (1 * 1) by ring. apply eqm_mul.
    + apply pow_one_mul; [lia|lia|apply OA].
    + rewrite Z.mul_comm. apply pow_one_mul; [lia|lia|apply OB].
  - intros q Pq D. apply prime_mult in D; auto. destruct D as [D|D].
    + apply K; auto.
    + rewrite Z.mul_comm, (Z.mul_comm A). apply K; auto. now apply rel_prime_sym.
Qed.

(** The residues are not all roots of [x^k = 1] for [k < p - 1]. *)
Lemma nonroot k : 0 < k < p - 1 -> exists a, 0 < a < p /\ ~ a ^ k == 1.
Proof.
  intros Hk.
  destruct (Forall_Exists_dec (fun a => a ^ k == 1)) with (l := upto (p - 1)) as [F|F].
  { intros x. destruct (Zdivide_dec p (x ^ k - 1)); auto. }
  - exfalso. pose proof (unit_roots_bound p P k (upto (p - 1)) ltac:(lia) (upto_NoDup _)) as U.
    rewrite upto_length in U. assert (Z.of_nat (Z.to_nat (p - 1)) <= k); [|lia]. apply U.
    rewrite Forall_forall in *. intros x Hx. split; auto. apply upto_In in Hx. lia.
  - apply Exists_exists in F. destruct F as (a & Ha & N). apply upto_In in Ha. exists a. split; auto. lia.
Qed.

(** A prime power part. *)
Lemma split_power q : prime q -> forall n, 0 < n -> (q | n) ->
  exists e r, 1 <= e /\ 0 < r /\ n = q ^ e * r /\ ~ (q | r).
Proof.
  intros Pq n Hn. assert (0 <= n) as H0 by lia. revert Hn. pattern n. apply Z_lt_induction; auto.
  clear n H0. intros n IH Hn [c Hc]. pose proof (prime_ge_2 _ Pq). assert (0 < c < n) by nia.
  destruct (Zdivide_dec q c) as [D|D].
  - destruct (IH c) as (e & r & He & Hr & E & N); auto; [lia|lia|]. exists (e + 1), r.
    rewrite Z.pow_add_r, Z.pow_1_r by lia. rewrite Hc, E at 1. repeat split; auto; [lia|ring].
  - exists 1, c. rewrite Z.pow_1_r. repeat split; auto; lia.
Qed.

Lemma elem_order D : 0 < D -> (D | p - 1) -> exists a, 0 < a < p /\ ord a D.
Proof.
  intros HD. pose proof (p_ge2 _ P) as G2. assert (0 <= D) as H0 by lia. revert HD. pattern D. apply Z_lt_induction; auto.
  clear D H0. intros D IH HD DD. destruct (Z.eq_dec D 1) as [->|N1].
  { exists 1. split; [lia|]. split; [rewrite Z.pow_1_r; apply eqm_refl|].
    intros q Pq Dq. apply Z.divide_pos_le in Dq; [|lia]. pose proof (prime_ge_2 _ Pq). lia. }
  destruct (prime_factor D) as (q & Pq & Dq); [lia|]. pose proof (prime_ge_2 _ Pq) as Hq.
  destruct (split_power q Pq D HD Dq) as (e & r & He & Hr & E & N).
  assert (Qe : 2 <= q ^ e).
  { replace e with (1 + (e - 1)) by lia. rewrite Z.pow_add_r, Z.pow_1_r by lia. pose proof (Z.pow_pos_nonneg q (e - 1)). nia. }
  destruct (IH r) as (b & Hb & Ob); [nia|auto|eapply Z.divide_trans; [|exact DD]; exists (q ^ e); lia|].
  destruct DD as [c Hc]. assert (Hc0 : 0 < c).
  { destruct (Z.lt_ge_cases 0 c); auto. assert (p - 1 <= 0) by nia. lia. }
  set (n := p - 1) in *.
  assert (En : n = q ^ (e - 1) * (r * c) * q).
  { rewrite Hc, E. replace e with (e - 1 + 1) at 1 by lia. rewrite Z.pow_add_r, Z.pow_1_r by lia. ring. }
  set (u := q ^ (e - 1)) in *. assert (Hu : 0 < u) by (apply Z.pow_pos_nonneg; lia).
  destruct (nonroot (u * (r * c))) as (a & Ha & Na).
  { fold n. assert (0 < u * (r * c)) by (apply Z.mul_pos_pos; nia). nia. }
  assert (Oa : ord (a ^ (r * c)) (q ^ e)).
  { split.
    - rewrite <- Z.pow_mul_r by nia. replace (r * c * q ^ e) with (p - 1) by (fold n; rewrite Hc, E; ring).
      apply fermat; auto. apply not_div_small; auto.
    - intros q' Pq' Dq'. assert (q' = q) as ->.
      { apply prime_power_prime with (n := e); auto. lia. }
      replace (q ^ e / q) with u.
      2:{ unfold u. replace e with (e - 1 + 1) at 2 by lia. rewrite Z.pow_add_r, Z.pow_1_r by lia. now rewrite Z.div_mul by lia. }
      rewrite <- Z.pow_mul_r by nia. now rewrite Z.mul_comm. }
  assert (Rp : rel_prime (q ^ e) r).
  { apply rel_prime_sym, Zpow_facts.rel_prime_Zpower_r; [lia|]. apply rel_prime_sym, prime_rel_prime; auto. }
  pose proof (ord_prod (a ^ (r * c)) (q ^ e) b r ltac:(lia) Hr Rp Oa Ob) as O. rewrite <- E in O.
  exists ((a ^ (r * c) * b) mod p). split.
  - assert (~ (p | a ^ (r * c) * b)).
    { apply not_div_mul; auto; [|apply not_div_small; auto]. apply not_div_pow; auto; [nia|]. apply not_div_small; auto. }
    pose proof (Z.mod_pos_bound (a ^ (r * c) * b) p). destruct (Z.eq_dec ((a ^ (r * c) * b) mod p) 0) as [Z0|]; [|lia].
    apply Z.mod_divide in Z0; [contradiction|lia].
  - destruct O as [O1 O2]. split.
    + eapply eqm_trans; [apply eqm_pow, eqm_mod|auto].
    + intros q' Pq' Dq' K. apply (O2 q' Pq' Dq'). eapply eqm_trans; [apply eqm_pow, eqm_sym, eqm_mod|auto].
Qed.

Theorem generator_exists : exists g, 0 < g < p /\ ord g (p - 1).
Proof. pose proof (p_ge2 _ P). apply elem_order; [lia|apply Z.divide_refl]. Qed.
End Gen.

(** Primality of the moduli of the library by Proth's criterion. *)
From Coq Require Import Znumtheory Zpow_facts.
From Verif Require Import Base BaseLemmas NumTheory NumGen BitProof.
Local Open Scope Z_scope.
Ltac Zify.zify_post_hook ::= idtac.

Lemma small_factor p : 1 < p -> ~ prime p -> exists q, prime q /\ (q | p) /\ q * q <= p.
Proof.
  intros H1 NP. destruct (not_prime_divide p H1 NP) as (a & [A1 A2] & [b Hb]).
  assert (B : 1 < b) by nia.
  destruct (Z.le_gt_cases a b) as [C|C].
  - destruct (prime_factor a A1) as (q & Q & [c Hc]). exists q. split; auto. split.
    + rewrite Hb, Hc. exists (b * c). ring.
    + pose proof (prime_ge_2 _ Q). assert (q <= a) by (apply Z.divide_pos_le; [lia|exists c; auto]). rewrite Hb. apply Z.le_trans with (a * a); [apply Z.mul_le_mono_nonneg; lia|]. rewrite (Z.mul_comm b). apply Z.mul_le_mono_nonneg; lia.
  - destruct (prime_factor b B) as (q & Q & [c Hc]). exists q. split; auto. split.
    + rewrite Hb, Hc. exists (c * a). ring.
    + pose proof (prime_ge_2 _ Q). assert (q <= b) by (apply Z.divide_pos_le; [lia|exists c; auto]). rewrite Hb. apply Z.le_trans with (b * b); [apply Z.mul_le_mono_nonneg; lia|]. apply Z.mul_le_mono_nonneg; lia.
Qed.

(** An element with [b^(2^k) = -1] has an order divisible by [2^(k+1)]. *)
Lemma order_pow2 q b k e : 2 < q -> 0 <= k -> 0 < e -> eqm q (b ^ (2 ^ k)) (-1) -> eqm q (b ^ e) 1 -> (2 ^ (k + 1) | e).
Proof.
  intros Hq Hk He H1 H2. destruct (odd_split e He) as (s & o & Hs & Ho & ->).
  destruct (Z.le_gt_cases (k + 1) s) as [C|C].
  - exists (2 ^ (s - (k + 1)) * (2 * o + 1)). replace s with ((s - (k + 1)) + (k + 1)) at 1 by lia. rewrite Z.pow_add_r by lia. ring.
  - exfalso. assert (A : eqm q (b ^ (2 ^ k * (2 * o + 1))) (-1)).
    { rewrite Z.pow_mul_r by lia. apply eqm_trans with ((-1) ^ (2 * o + 1)); [now apply eqm_pow|].
      rewrite Z.pow_add_r, Z.pow_mul_r by lia. change ((-1) ^ 2) with 1. rewrite Z.pow_1_l by lia. apply eqm_refl. }
    assert (B : eqm q (b ^ (2 ^ k * (2 * o + 1))) 1).
    { replace (2 ^ k * (2 * o + 1)) with ((2 ^ s * (2 * o + 1)) * 2 ^ (k - s)).
      - rewrite Z.pow_mul_r by (try apply Z.mul_nonneg_nonneg; lia). apply eqm_trans with (1 ^ (2 ^ (k - s))); [now apply eqm_pow|].
        rewrite Z.pow_1_l by (apply Z.pow_nonneg; lia). apply eqm_refl.
      - replace k with (s + (k - s)) at 2 by lia. rewrite Z.pow_add_r by lia. ring. }
    assert (D : (q | 2)). { pose proof (eqm_trans q _ _ _ (eqm_sym q _ _ B) A) as [z Hz]. exists z. lia. }
    apply Z.divide_pos_le in D; lia.
Qed.

Lemma proth p a h k : 0 < h -> 0 <= k -> p = h * 2 ^ (k + 1) + 1 -> h <= 2 ^ (k + 1) ->
  Zpow_mod a (h * 2 ^ k) p = p - 1 -> prime p.
Proof.
  intros Hh Hk Ep Hlt Hw. assert (K1 : 2 ^ (k + 1) = 2 * 2 ^ k) by (rewrite Z.pow_add_r by lia; lia).
  pose proof (Z.pow_pos_nonneg 2 k ltac:(lia) Hk).
  assert (P1 : 1 < p) by nia. destruct (prime_dec p) as [|NP]; auto. exfalso.
  destruct (small_factor p P1 NP) as (q & Q & Dq & Sq). pose proof (prime_ge_2 _ Q) as Q2.
  assert (W : eqm p (a ^ (h * 2 ^ k)) (-1)).
  { apply eqm_mod_eq; [lia|]. rewrite Zpow_mod_correct in Hw by lia. rewrite Hw.
    replace (-1) with (p - 1 + (-1) * p) by lia. rewrite Z.mod_add by lia. symmetry. apply Z.mod_small. lia. }
  assert (Wq : eqm q ((a ^ h) ^ (2 ^ k)) (-1)).
  { rewrite <- Z.pow_mul_r by lia. eapply Z.divide_trans; [exact Dq|exact W]. }
  assert (Q3 : 2 < q).
  { destruct (Z.eq_dec q 2) as [E|]; [|lia]. exfalso. subst q. destruct Dq as [z Hz]. rewrite Ep, K1 in Hz.
    assert (1 = 2 * (z - h * 2 ^ k)) by lia. lia. }
  assert (ND : ~ (q | a ^ h)).
  { intros D. assert (q | 1); [|apply Z.divide_1_r_nonneg in H0; lia].
    assert (q | (a ^ h) ^ (2 ^ k)). { apply Z.divide_trans with (a ^ h); auto. exists ((a ^ h) ^ (2 ^ k - 1)).
      rewrite <- (Z.pow_1_r (a ^ h)) at 3. rewrite <- Z.pow_add_r by lia. f_equal. lia. }
    destruct Wq as [y Hy]. destruct H0 as [x Hx]. exists (y - x). lia. }
  pose proof (fermat q Q (a ^ h) ND) as F.
  pose proof (order_pow2 q (a ^ h) k (q - 1) Q3 Hk ltac:(lia) Wq F) as O.
  apply Z.divide_pos_le in O; [|lia]. nia.
Qed.

Lemma prime_998244353 : prime 998244353.
Proof. apply (proth _ 3 119 22); try lia; vm_compute; auto; discriminate. Qed.
Lemma prime_754974721 : prime 754974721.
Proof. apply (proth _ 11 45 23); try lia; vm_compute; auto; discriminate. Qed.
Lemma prime_167772161 : prime 167772161.
Proof. apply (proth _ 3 5 24); try lia; vm_compute; auto; discriminate. Qed.
Lemma prime_469762049 : prime 469762049.
Proof. apply (proth _ 3 7 25); try lia; vm_compute; auto; discriminate. Qed.

(** C23: Modular and DynamicModular are the ring Z/m. C24: is_square and sqrt. *)
From Coq Require Import Znumtheory.
From Verif Require Import Base BaseLemmas SearchModel BitModel NumTheory ModularModel ModularProof ModularSqrt.
Local Open Scope Z_scope.

(** Any expression built from the constructors, +, -, *, unary -, ++, -- and
    pow evaluates, without overflow, to the residue of the same expression
    over the integers. *)
Theorem C23_ring : forall m e, 1 <= m < 2 ^ 31 -> m_typed e ->
  m_eval m e = Some (z_eval e mod m).
Proof. intros; now apply m_eval_ok. Qed.

(** [==] decides congruence. *)
Theorem C23_equality : forall m e1 e2, 1 <= m < 2 ^ 31 -> m_typed e1 -> m_typed e2 ->
  exists a b, m_eval m e1 = Some a /\ m_eval m e2 = Some b /\
  (m_eq a b = true <-> (m | z_eval e1 - z_eval e2)).
Proof.
  intros m e1 e2 M T1 T2. do 2 eexists. split; [now apply m_eval_ok|]. split; [now apply m_eval_ok|].
  unfold m_eq. rewrite Z.eqb_eq. symmetry. apply (eqm_mod_eq m); lia.
Qed.

(** Inverses and exact division modulo a prime. *)
Theorem C23_inv : forall m a, 1 <= m < 2 ^ 31 -> prime m -> 0 < a < m ->
  exists i, m_inv m a = Some i /\ 0 <= i < m /\ m_mul m a i = Some 1.
Proof.
  intros m a M P Ha. destruct (m_inv_ok _ M P a) as (i & E & R & K); [unfold residue; lia|lia|].
  exists i. split; auto. split; auto. rewrite m_mul_ok by (auto; unfold residue; lia). now rewrite K.
Qed.
Theorem C23_div : forall m a b, 1 <= m < 2 ^ 31 -> prime m -> 0 <= a < m -> 0 < b < m ->
  exists q, m_div m a b = Some q /\ 0 <= q < m /\ m_mul m q b = Some a.
Proof.
  intros m a b M P Ha Hb. destruct (m_div_ok _ M P a b) as (q & E & R & K); [auto|unfold residue; lia|lia|].
  exists q. split; auto. split; auto. rewrite m_mul_ok by (auto; unfold residue; lia). now rewrite K.
Qed.

(** The table of ModularUtil: along any history of calls inv(i), 0 < i < m,
    each call returns the inverse. *)
Theorem C23_util_inv : forall m h, 1 <= m < 2 ^ 31 -> prime m ->
  Forall (fun i => (0 < i)%nat /\ Z.of_nat i < m) h ->
  exists out tb, util_run m h = Some (out, tb) /\
  Forall2 (fun i v => 0 <= v < m /\ (Z.of_nat i * v) mod m = 1) h out.
Proof.
  intros m h M P F.
  assert (K : forall h out tb, inv_tab m tb -> Forall (fun i => (0 < i)%nat /\ Z.of_nat i < m) h ->
    exists o2 tb2, for_each h (fun i '(out, tb) =>
      let* (v, tb) := util_inv m tb i in Some (out ++ [v], tb)) (out, tb) = Some (out ++ o2, tb2) /\
      Forall2 (fun i v => 0 <= v < m /\ (Z.of_nat i * v) mod m = 1) h o2).
  { clear h F. induction h as [|i h IH]; intros out tb I F; cbn [for_each].
    - exists [], tb. rewrite app_nil_r. auto.
    - inversion F as [|? ? [Hi Hm] F']; subst. unfold util_inv at 1.
      destruct (util_set_inv_ok _ M P _ _ I Hm) as (tb1 & -> & I1 & L1). cbn [obind].
      destruct (get_lt _ L1) as [v G]. rewrite G. cbn [obind].
      destruct (IH (out ++ [v]) tb1 I1 F') as (o2 & tb2 & -> & FF).
      exists (v :: o2), tb2. rewrite <- app_assoc. split; [reflexivity|]. constructor; auto.
      destruct I1 as [_ I1]. destruct (I1 _ _ G) as (R & Iv & _). split; auto. }
  destruct (K h [] _ (util_init_ok _ M P) F) as (o & tb & E & FF). exists o, tb. auto.
Qed.

(** [operator>>] does not reduce: reading 10 into Modular<7> leaves a value
    that is not a residue and differs from Modular<7>(10). *)
Theorem C23_stream_refuted : m_read 10 = 10 /\ m_eq (m_read 10) (m_signed 7 10) = false /\ ~ 0 <= m_read 10 < 7.
Proof. repeat split; try reflexivity. unfold m_read, u32. rewrite Z.mod_small; lia. Qed.

Lemma odd_half m : m mod 2 = 1 -> m = 2 * ((m - 1) / 2) + 1.
Proof. intros. Z.div_mod_to_equations. lia. Qed.

(** is_square and sqrt of Modular for every odd prime and non-zero residue. *)
Theorem C24_modular_sqrt : forall m x fuel, 1 <= m < 2 ^ 31 -> prime m -> m mod 2 = 1 -> 0 < x < m ->
  (Z.to_nat m <= fuel)%nat ->
  (exists b, m_is_square m x = Some b /\ (b = true <-> exists y, 0 <= y < m /\ (y * y) mod m = x)) /\
  ((exists y, 0 <= y < m /\ (y * y) mod m = x) ->
     exists r, m_sqrt m fuel x = Some (Some r) /\ 0 <= r < m /\ (r * r) mod m = x) /\
  ((~ exists y, 0 <= y < m /\ (y * y) mod m = x) -> m_sqrt m fuel x = Some None).
Proof.
  intros m x fuel M P O Hx Hf. assert (R : residue m x) by (unfold residue; lia).
  destruct (m_is_square_ok _ M P O _ (odd_half _ O) x R) as (b & E & B); [lia|].
  split; [eauto|]. unfold m_sqrt. rewrite E. cbn [obind]. split.
  - intros H. rewrite (proj2 B) by auto. cbn [negb].
    destruct (m_is_square_pow _ M P O _ (odd_half _ O) x R) as (b2 & E2 & B2). rewrite E in E2. injection E2 as <-.
    destruct (sqrt_body_ok _ M P O _ (odd_half _ O) _ fuel x (m_issq_ok _ M P O _ (odd_half _ O))) as (r & -> & Rr & Er); auto.
    + clear - Hx. lia.
    + apply B2, B; auto.
    + exists r. auto.
  - intros H. destruct b; [exfalso; apply H, B; auto|reflexivity].
Qed.

(** DynamicModular treats 0, 1 and the modulus 2 correctly as well. *)
Theorem C24_dynamic_sqrt : forall m x fuel, 1 <= m < 2 ^ 31 -> prime m -> 0 <= x < m ->
  (Z.to_nat m <= fuel)%nat ->
  (exists b, d_is_square m x = Some b /\ (b = true <-> exists y, 0 <= y < m /\ (y * y) mod m = x)) /\
  ((exists y, 0 <= y < m /\ (y * y) mod m = x) ->
     exists r, d_sqrt m fuel x = Some (Some r) /\ 0 <= r < m /\ (r * r) mod m = x) /\
  ((~ exists y, 0 <= y < m /\ (y * y) mod m = x) -> d_sqrt m fuel x = Some None).
Proof.
  intros m x fuel M P Hx Hf. pose proof (p_ge2 _ P).
  assert (R : residue m x) by (unfold residue; lia).
  destruct (Z.eq_dec x 0) as [->|N0].
  { assert (Y : exists y, 0 <= y < m /\ (y * y) mod m = 0) by (exists 0; split; [lia|reflexivity]).
    split; [exists true; split; [reflexivity|tauto]|]. split; [|tauto]. intros _.
    exists 0. split; [|split; [lia|reflexivity]]. unfold d_sqrt. reflexivity. }
  destruct (Z.eq_dec x 1) as [->|N1].
  { assert (Y : exists y, 0 <= y < m /\ (y * y) mod m = 1) by (exists 1; split; [lia|apply Z.mod_small; lia]).
    assert (B : d_is_square m 1 = Some true).
    { unfold d_is_square, m_is_square. cbn [Z.eqb].
      assert (H0 : 0 <= u32 (m - 1) / 2 < 2 ^ 63).
      { rewrite u32_id by lia. split; [apply Z.div_pos; lia|apply Z.div_lt_upper_bound; lia]. }
      rewrite m_pow_ok by auto. rewrite Z.pow_1_l by lia. rewrite m_signed_ok by auto.
      cbn [obind]. unfold m_eq. now rewrite Z.eqb_refl. }
    split; [exists true; split; [auto|tauto]|]. split; [|tauto]. intros _.
    exists 1. split; [|split; [lia|apply Z.mod_small; lia]].
    unfold d_sqrt. rewrite B. cbn [obind negb]. change (1 <? 2) with true. cbv iota.
    do 2 f_equal. unfold m_unsigned. rewrite u32_id by (rewrite Z.mod_small; lia). apply Z.mod_small; lia. }
  assert (O : m mod 2 = 1).
  { pose proof (Z.mod_pos_bound m 2 ltac:(lia)). destruct (Z.eq_dec (m mod 2) 0) as [E|]; [|lia].
    apply Z.mod_divide in E; [|lia]. apply prime_divisors in E; auto. lia. }
  assert (DS : d_is_square m x = m_is_square m x) by (unfold d_is_square; now replace (x =? 0) with false by lia).
  destruct (m_is_square_ok _ M P O _ (odd_half _ O) x R N0) as (b & E & B).
  rewrite DS. split; [eauto|]. unfold d_sqrt. rewrite DS, E. cbn [obind]. split.
  - intros Y. rewrite (proj2 B) by auto. cbn [negb]. replace (x <? 2) with false by lia.
    destruct (m_is_square_pow _ M P O _ (odd_half _ O) x R) as (b2 & E2 & B2). rewrite E in E2. injection E2 as <-.
    destruct (sqrt_body_ok _ M P O _ (odd_half _ O) _ fuel x (d_issq_ok _ M P O _ (odd_half _ O))) as (r & -> & Rr & Er); auto.
    + apply B2, B; auto.
    + exists r. auto.
  - intros Y. destruct b; [exfalso; apply Y, B; auto|reflexivity].
Qed.

(** Modular reports that 0 is not a square (so sqrt throws) for every odd prime. *)
Theorem C24_zero_refuted : forall m fuel, 1 <= m < 2 ^ 31 -> prime m -> m mod 2 = 1 ->
  m_is_square m 0 = Some false /\ m_sqrt m fuel 0 = Some None /\ (0 * 0) mod m = 0.
Proof.
  intros m fuel M P O. unfold m_sqrt. rewrite (m_is_square_zero _ M P O _ (odd_half _ O)). repeat split; auto.
Qed.
(** Modular<2>::sqrt never finds a non-square and loops for ever. *)
Theorem C24_mod2_refuted : forall fuel, m_sqrt 2 fuel 1 = None.
Proof.
  intros fuel. unfold m_sqrt. cbn -[find_nonsquare].
  assert (K : find_nonsquare 2 fuel (m_is_square 2) = None); [|now rewrite K].
  unfold find_nonsquare.
  assert (G : forall fuel d, d = 0 \/ d = 1 -> loop fuel (fun d => let* b := m_is_square 2 d in
      if b then Some (inl (m_add 2 d (m_signed 2 1))) else Some (inr d)) d = @None Z).
  { clear fuel. induction fuel as [|fuel IH]; intros d Hd; [reflexivity|].
    destruct Hd as [-> | ->]; cbn [loop]; [change (m_is_square 2 0) with (Some true)|change (m_is_square 2 1) with (Some true)];
    cbn [obind]; apply IH; [right|left]; reflexivity. }
  apply G. left. reflexivity.
Qed.

Example C23_example :
  m_eval 998244353 (EMul (EPow (EInt (-3)) 100) (ESub (EUInt 5) (ENeg (EInc (EInt 7)))))
  = Some (((-3) ^ 100 * (5 - - (7 + 1))) mod 998244353).
Proof. vm_compute. reflexivity. Qed.
Example C23_util_example : exists tb, util_run 13 [5; 3; 12]%nat = Some ([8; 9; 12], tb).
Proof. eexists. vm_compute. reflexivity. Qed.
Example C24_example : m_sqrt 17 17 2 = Some (Some 6) /\ m_sqrt 17 17 3 = Some None /\ m_sqrt 13 13 10 = Some (Some 7)
  /\ m_sqrt 7 7 2 = Some (Some 4) /\ d_sqrt 2 2 1 = Some (Some 1) /\ m_sqrt 97 97 22 = Some (Some 33).
Proof. vm_compute. repeat split; reflexivity. Qed.
Example C24_prime : prime 17.
Proof.
  apply prime_intro; [lia|]. intros n Hn. apply Zgcd_1_rel_prime.
  assert (n = 1 \/ n = 2 \/ n = 3 \/ n = 4 \/ n = 5 \/ n = 6 \/ n = 7 \/ n = 8 \/ n = 9 \/ n = 10 \/ n = 11
    \/ n = 12 \/ n = 13 \/ n = 14 \/ n = 15 \/ n = 16) by lia.
  repeat match goal with H : _ \/ _ |- _ => destruct H as [->|H]; [reflexivity|] end. now subst.
Qed.

Print Assumptions C23_ring.
Print Assumptions C23_equality.
Print Assumptions C23_inv.
Print Assumptions C23_div.
Print Assumptions C23_util_inv.
Print Assumptions C23_stream_refuted.
Print Assumptions C24_modular_sqrt.
Print Assumptions C24_dynamic_sqrt.
Print Assumptions C24_zero_refuted.
Print Assumptions C24_mod2_refuted.

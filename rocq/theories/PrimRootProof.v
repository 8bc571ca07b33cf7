From Coq Require Import Znumtheory Zpow_facts.
From Verif Require Import Base BaseLemmas SearchModel BitModel BitProof NumTheory NumGen PrimRootModel.
Local Open Scope Z_scope.
Ltac Zify.zify_post_hook ::= idtac.

Lemma mach_in w x : in_range w x -> mach w x = Some x.
Proof.
  unfold in_range, mach. intros H.
  replace ((- 2 ^ (w - 1) <=? x) && (x <? 2 ^ (w - 1))) with true; auto. lia.
Qed.

Lemma mod_pow_ok m x p : 2 <= m < 2 ^ 31 -> 0 <= x < m -> 0 <= p < 2 ^ 31 ->
  mod_pow x p m = Some (x ^ p mod m).
Proof.
  intros M Hx Hp. unfold mod_pow.
  match goal with |- context [loop _ ?b _] => set (body := b) end.
  assert (MM : forall a b, 0 <= a < m -> 0 <= b < m -> mach 64 (a * b) = Some (a * b) /\ Z.rem (a * b) m = (a * b) mod m).
  { intros a b Ha Hb. assert (B : 0 <= a * b < 2 ^ 62).
    { split; [nia|]. apply Z.le_lt_trans with ((2 ^ 31 - 1) * (2 ^ 31 - 1)); [|reflexivity].
      apply Z.mul_le_mono_nonneg; lia. }
    split; [apply mach_in; unfold in_range; clear - B; lia|]. apply Z.rem_mod_nonneg; lia. }
  assert (R : forall a, 0 <= a mod m < m) by (intros; apply Z.mod_pos_bound; lia).
  assert (K : forall n t u q, 0 <= q < 2 ^ Z.of_nat n -> 0 <= t < m -> 0 <= u < m ->
    forall fuel, (n < fuel)%nat -> loop fuel body (t, u, q) = Some ((t * u ^ q) mod m)).
  { induction n as [|n IH]; intros t u q Hq Ht Hu fuel Hf; (destruct fuel as [|fuel]; [lia|]); cbn [loop].
    - change (2 ^ Z.of_nat 0) with 1 in Hq. assert (q = 0) by lia. subst q. unfold body at 1.
      cbn [Z.eqb]. rewrite Z.pow_0_r, Z.mul_1_r. f_equal. symmetry. now apply Z.mod_small.
    - unfold body at 1. destruct (q =? 0) eqn:E0.
      + replace q with 0 by lia. rewrite Z.pow_0_r, Z.mul_1_r. f_equal. symmetry. now apply Z.mod_small.
      + rewrite Nat2Z.inj_succ, Z.pow_succ_r in Hq by lia.
        assert (Hq2 : 0 <= Z.shiftr q 1 < 2 ^ Z.of_nat n).
        { rewrite Z.shiftr_div_pow2 by lia. change (2 ^ 1) with 2. Z.div_mod_to_equations; lia. }
        assert (Q : q = 2 * Z.shiftr q 1 + (if Z.odd q then 1 else 0)).
        { rewrite Z.shiftr_div_pow2 by lia. change (2 ^ 1) with 2. rewrite Zodd_mod.
          destruct (Zeq_bool (q mod 2) 1) eqn:E1; [apply Zeq_bool_eq in E1|apply Zeq_bool_neq in E1];
            Z.div_mod_to_equations; lia. }
        assert (EU : forall t', eqm m t' (t * (if Z.odd q then u else 1)) -> 0 <= t' < m ->
           loop fuel body (t', (u * u) mod m, Z.shiftr q 1) = Some ((t * u ^ q) mod m)).
        { intros t' Et Rt. rewrite (IH t' ((u * u) mod m) (Z.shiftr q 1)); auto; [|lia].
          f_equal. apply eqm_mod_eq; [lia|].
          eapply eqm_trans; [apply eqm_mul; [apply Et|apply eqm_pow, eqm_mod]|].
          rewrite Q at 3. rewrite Z.pow_add_r by (destruct (Z.odd q); lia).
          rewrite Z.pow_mul_r by lia. replace (u ^ 2) with (u * u) by ring.
          replace (u ^ (if Z.odd q then 1 else 0)) with (if Z.odd q then u else 1)
            by (destruct (Z.odd q); ring).
          match goal with |- eqm m ?x ?y => replace y with x by ring end. apply eqm_refl. }
        destruct (MM u u Hu Hu) as [U1 U2]. destruct (MM t u Ht Hu) as [T1 T2].
        destruct (Z.odd q) eqn:Eo.
        * rewrite T1. cbn [obind]. rewrite U1. cbn [obind]. rewrite T2, U2. apply EU; [apply eqm_mod|auto].
        * cbn [obind]. rewrite U1. cbn [obind]. rewrite U2. apply EU; auto. rewrite Z.mul_1_r. apply eqm_refl. }
  rewrite (K 31%nat) by (auto; lia). cbn [obind]. rewrite Z.mul_1_l. apply mach_in. unfold in_range.
  pose proof (R (x ^ p)). change (2 ^ (32 - 1)) with (2 ^ 31). lia.
Qed.

Lemma strip_ok d x : 3 <= d -> 0 < x < 2 ^ 31 -> exists y k, strip d x = Some y /\ 0 <= k /\ x = y * d ^ k /\ 0 < y /\ ~ (d | y) /\
  ((d | x) -> 1 <= k).
Proof.
  intros Hd Hx. unfold strip. match goal with |- context [loop _ ?b _] => set (body := b) end.
  destruct (@loop_rule _ _ (fun y => 0 < y /\ exists k, 0 <= k /\ x = y * d ^ k) (fun y => Z.to_nat (Z.log2 y))
    (fun y => (0 < y /\ exists k, 0 <= k /\ x = y * d ^ k) /\ ~ (d | y)) body) with (fuel := 32%nat) (s := x)
    as (y & E & (Hy & k & Hk & Ex) & N).
  - intros y (Hy & k & Hk & Ex). unfold body. rewrite Z.rem_mod_nonneg by lia. destruct (y mod d =? 0) eqn:E.
    + apply Z.eqb_eq in E. apply Z.mod_divide in E; [|lia]. destruct E as [c Ec]. eexists; split; [reflexivity|].
      rewrite Z.quot_div_nonneg by lia. rewrite Ec, Z.div_mul by lia. assert (0 < c) by nia.
      split; [split; auto; exists (k + 1); rewrite Z.pow_add_r, Z.pow_1_r by lia; split; [lia|rewrite Ex, Ec; ring]|].
      assert (L : Z.log2 (2 * c) <= Z.log2 (c * d)) by (apply Z.log2_le_mono; nia).
      rewrite Z.log2_double in L by auto. pose proof (Z.log2_nonneg c). lia.
    + eexists; split; [reflexivity|]. cbn. split; [split; auto; exists k; auto|].
      intros D. apply Z.mod_divide in D; lia.
  - split; [lia|]. exists 0. rewrite Z.pow_0_r. lia.
  - assert (Z.log2 x < 31) by (apply Z.log2_lt_pow2; lia). lia.
  - exists y, k. repeat split; auto. intros D. destruct (Z.eq_dec k 0) as [->|]; [|lia].
    rewrite Z.pow_0_r, Z.mul_1_r in Ex. now subst.
Qed.

Lemma push_ok divs d : (length divs < 20)%nat -> push_div divs d = Some (divs ++ [d]).
Proof. intros H. unfold push_div. replace (length divs <? 20)%nat with true by lia. reflexivity. Qed.

(** [x] has no prime factor below [d] and [x < d^2], so it is 1 or prime. *)
Lemma small_prime x d : 1 < x -> 0 < d -> x < d * d -> (forall q, prime q -> q < d -> ~ (q | x)) -> prime x.
Proof.
  intros Hx Hd Hb N. destruct (prime_dec x) as [|NP]; auto. exfalso.
  apply not_prime_divide in NP; auto. destruct NP as (a & Ha & b & Hb').
  assert (Hb0 : 1 < b) by nia.
  assert (a < d \/ b < d) as [C|C] by nia.
  - destruct (prime_factor a) as (q & Pq & Dq); [lia|]. pose proof (Z.divide_pos_le q a ltac:(lia) Dq).
    apply (N q Pq); [lia|]. eapply Z.divide_trans; [exact Dq|]. exists b. auto.
  - destruct (prime_factor b) as (q & Pq & Dq); [lia|]. pose proof (Z.divide_pos_le q b ltac:(lia) Dq).
    apply (N q Pq); [lia|]. eapply Z.divide_trans; [exact Dq|]. exists a. rewrite Hb'. ring.
Qed.

Lemma prime_divs_ok m : 3 <= m < 2 ^ 31 -> m mod 2 = 1 ->
  exists divs, prime_divs m = Some divs /\
    (forall q, prime q -> (q | m - 1) -> In q divs) /\ (forall d, In d divs -> 1 < d /\ (d | m - 1)).
Proof.
  intros M Odd. unfold prime_divs. rewrite mach_in by (unfold in_range; lia). cbn [obind].
  assert (Ev : (m - 1) mod 2 = 0) by (Z.div_mod_to_equations; lia).
  rewrite Z.rem_mod_nonneg, Ev by lia. cbn [Z.eqb]. rewrite push_ok by (cbn; lia). cbn [obind app].
  destruct (odd_split (m - 1)) as (s & q0 & Hs & Hq & ES); [lia|].
  assert (Ps : 0 < 2 ^ s) by (apply Z.pow_pos_nonneg; lia).
  assert (S64 : s < 31).
  { apply (Z.pow_lt_mono_r_iff 2); [lia|lia|]. clear - Ps Hq ES M. nia. }
  assert (CT : ctz (u64 (m - 1)) = s).
  { unfold u64. rewrite Z.mod_small by lia. rewrite ctz_ok by (unfold word64; lia). rewrite ES.
    replace s with (Z.of_nat (Z.to_nat s)) by lia. rewrite run_split; lia. }
  rewrite CT. remember (2 * q0 + 1) as x0 eqn:Hx0.
  assert (Ht : Z.shiftr (m - 1) s = x0).
  { rewrite ES, Z.shiftr_div_pow2 by lia. rewrite Z.mul_comm. apply Z.div_mul. lia. }
  rewrite Ht.
  assert (S1 : 1 <= s).
  { destruct (Z.eq_dec s 0) as [E0|]; [|lia]. rewrite E0 in ES. change (2 ^ 0) with 1 in ES.
    rewrite Z.mul_1_l, Hx0 in ES. rewrite ES in Ev. clear - Ev. Z.div_mod_to_equations; lia. }
  assert (Ps2 : 2 <= 2 ^ s) by (change 2 with (2 ^ 1) at 1; apply Z.pow_le_mono_r; lia).
  assert (Dx0 : (x0 | m - 1)) by (exists (2 ^ s); lia).
  assert (D2 : (2 | m - 1)).
  { exists (2 ^ (s - 1) * x0). rewrite ES. replace s with (s - 1 + 1) at 1 by lia. rewrite Z.pow_add_r, Z.pow_1_r by lia. ring. }
  assert (Bx0 : 1 <= x0 < 2 ^ 30) by (clear - M ES Ps2 Hx0 Hq; nia).
  assert (Ox0 : ~ (2 | x0)) by (intros [c Hc]; lia).
  match goal with |- context [loop _ ?b _] => set (body := b) end.
  set (I := fun '(d, x, divs) => 3 <= d /\ d mod 2 = 1 /\ 1 <= x /\ (x | x0) /\
     (forall q, prime q -> q < d -> ~ (q | x)) /\ d <= Z.sqrt x0 + 2 /\
     (forall q, prime q -> (q | m - 1) -> In q divs \/ (q | x)) /\
     (forall d, In d divs -> 1 < d /\ (d | m - 1)) /\
     (1 <= length divs)%nat /\ 3 ^ Z.of_nat (length divs - 1) * x <= x0).
  set (Q := fun '(x, divs) => 1 <= x /\ (1 < x -> prime x) /\ (x | x0) /\
     (forall q, prime q -> (q | m - 1) -> In q divs \/ (q | x)) /\
     (forall d, In d divs -> 1 < d /\ (d | m - 1)) /\ (length divs < 20)%nat).
  assert (LB : forall (divs : list Z) x, (1 <= length divs)%nat -> 1 <= x -> 3 ^ Z.of_nat (length divs - 1) * x <= x0 -> (length divs < 20)%nat).
  { intros divs x L1 X1 LE. destruct (Nat.lt_ge_cases (length divs) 20); auto. exfalso.
    assert (3 ^ 19 <= 3 ^ Z.of_nat (length divs - 1)) by (apply Z.pow_le_mono_r; lia).
    change (3 ^ 19) with 1162261467 in *. change (2 ^ 30) with 1073741824 in *. nia. }
  destruct (@loop_rule _ _ I (fun '(d, x, divs) => Z.to_nat (Z.sqrt x0 + 4 - d)) Q body)
    with (fuel := Z.to_nat (Z.sqrt x0 + 2)) (s := (3, x0, [2])) as ([x divs] & E & HQ).
  - intros [[d x] divs] (Hd & Od & Hx & Dx & Np & Sq & Cov & Dv & L1 & LE).
    assert (Hxx : x <= x0) by (apply Z.divide_pos_le; auto; lia).
    assert (Sq2 : Z.sqrt x0 < 2 ^ 15) by (apply Z.sqrt_lt_square; [lia|lia|]; change (2 ^ 15 * 2 ^ 15) with (2 ^ 30); lia).
    unfold body. rewrite mach_in by (unfold in_range; change (2 ^ (32 - 1)) with 2147483648; change (2 ^ 15) with 32768 in *; nia).
    cbn [obind]. destruct (d * d <=? x) eqn:Edd.
    + apply Z.leb_le in Edd.
      assert (Sd : d <= Z.sqrt x0) by (apply Z.sqrt_le_square; lia).
      assert (NP1 : forall q, prime q -> q < d + 2 -> q <> d -> ~ (q | x)).
      { intros q Pq Hlt Hne. destruct (Z.lt_ge_cases q d); [now apply Np|]. assert (q = d + 1) as -> by lia.
        intros D. apply Ox0. eapply Z.divide_trans; [|exact Dx]. eapply Z.divide_trans; [|exact D].
        exists ((d + 1) / 2). Z.div_mod_to_equations; lia. }
      rewrite Z.rem_mod_nonneg by lia. destruct (x mod d =? 0) eqn:Er.
      * apply Z.eqb_eq, Z.mod_divide in Er; [|lia].
        rewrite push_ok by (eapply LB; eauto). cbn [obind].
        destruct (strip_ok d x Hd) as (y & k & -> & Hk & Ey & Hy & Ny & Kd); [lia|]. specialize (Kd Er). cbn [obind].
        eexists; split; [reflexivity|]. split; [|lia]. unfold I.
        assert (Dy : (y | x)) by (exists (d ^ k); lia).
        assert (Pd : prime d).
        { destruct (prime_dec d) as [|NP]; auto. exfalso. apply not_prime_divide in NP; [|lia].
          destruct NP as (a & Ha & Da). destruct (prime_factor a) as (q & Pq & Dq); [lia|].
          pose proof (Z.divide_pos_le q a ltac:(lia) Dq). apply (Np q Pq); [lia|].
          eapply Z.divide_trans; [exact Dq|]. eapply Z.divide_trans; eauto. }
        split; [lia|]. split; [Z.div_mod_to_equations; lia|]. split; [lia|]. split; [eapply Z.divide_trans; eauto|].
        split.
        { intros q Pq Hlt D. destruct (Z.eq_dec q d) as [->|Ne]; [contradiction|].
          apply (NP1 q Pq Hlt Ne). eapply Z.divide_trans; eauto. }
        split; [lia|]. split.
        { intros q Pq Dq. destruct (Cov q Pq Dq) as [C|C]; [left; apply in_or_app; auto|].
          rewrite Ey in C. apply prime_mult in C; auto. destruct C as [C|C]; [auto|].
          left. apply in_or_app. right. left. symmetry. apply (prime_power_prime q d k); auto. }
        split.
        { intros d' Hd'. apply in_app_or in Hd'. destruct Hd' as [?|[<-|[]]]; [now apply Dv|]. split; [lia|].
          eapply Z.divide_trans; [exact Er|]. eapply Z.divide_trans; eauto. }
        rewrite app_length. cbn [length]. split; [lia|].
        replace (length divs + 1 - 1)%nat with (S (length divs - 1)) by lia. rewrite Nat2Z.inj_succ, Z.pow_succ_r by lia.
        assert (K3 : 3 * y <= x).
        { rewrite Ey. replace k with (1 + (k - 1)) by lia. rewrite Z.pow_add_r, Z.pow_1_r by lia.
          assert (PK : 0 < d ^ (k - 1)) by (apply Z.pow_pos_nonneg; lia). clear - PK Hd Hy.
          rewrite (Z.mul_comm 3). apply Z.mul_le_mono_nonneg_l; [lia|]. nia. }
        assert (PK : 0 < 3 ^ Z.of_nat (length divs - 1)) by (apply Z.pow_pos_nonneg; lia). clear - PK K3 LE. nia.
      * apply Z.eqb_neq in Er. cbn [obind]. eexists; split; [reflexivity|]. split; [|lia].
        unfold I. split; [lia|]. split; [Z.div_mod_to_equations; lia|].
        split; auto. split; auto. split.
        { intros q Pq Hlt D. destruct (Z.eq_dec q d) as [->|Ne]; [|now apply (NP1 q Pq Hlt Ne)].
          apply Er. now apply Z.mod_divide; [lia|]. }
        split; [lia|]. auto.
    + apply Z.leb_gt in Edd. eexists; split; [reflexivity|]. cbn.
      split; auto. split; [intros; apply small_prime with (d := d); auto; lia|].
      split; auto. split; auto. split; auto. eapply LB; eauto.
  - unfold I. split; [lia|]. split; [reflexivity|]. split; [lia|]. split; [apply Z.divide_refl|]. split.
    { intros q Pq Hlt. pose proof (prime_ge_2 _ Pq). assert (q = 2) as -> by lia. auto. }
    assert (1 <= Z.sqrt x0) by (apply Z.sqrt_le_square; lia). split; [lia|]. split.
    { intros q Pq Dq. rewrite ES in Dq. apply prime_mult in Dq; auto. destruct Dq as [Dq|Dq]; auto.
      left. left. symmetry. apply (prime_power_prime q 2 s); auto. apply prime_2. }
    split; [intros d [<-|[]]; split; [lia|auto]|]. cbn [length]. change (3 ^ Z.of_nat (1 - 1)) with 1. lia.
  - pose proof (Z.sqrt_nonneg x0). lia.
  - rewrite E. cbn [obind]. destruct HQ as (Hx & Hp & Dx & Cov & Dv & L). destruct (1 <? x) eqn:E1.
    + apply Z.ltb_lt in E1. rewrite push_ok by auto. eexists; split; [reflexivity|]. split.
      * intros q Pq Dq. apply in_or_app. destruct (Cov q Pq Dq) as [C|C]; auto. right. left.
        symmetry. apply prime_div_prime; auto.
      * intros d Hd. apply in_app_or in Hd. destruct Hd as [?|[<-|[]]]; [now apply Dv|]. split; auto.
        eapply Z.divide_trans; eauto.
    + apply Z.ltb_ge in E1. assert (x = 1) as -> by lia. eexists; split; [reflexivity|]. split; auto.
      intros q Pq Dq. destruct (Cov q Pq Dq) as [C|C]; auto.
      apply Z.divide_pos_le in C; [|lia]. pose proof (prime_ge_2 _ Pq). lia.
Qed.

Section Test.
Variable m : Z.
Hypothesis M : 3 <= m < 2 ^ 31.

Lemma root_test_ok g divs : 0 <= g < m -> (forall d, In d divs -> 1 < d /\ (d | m - 1)) ->
  exists b, root_test m g divs = Some b /\
    (b = true <-> forall d, In d divs -> ~ eqm m (g ^ ((m - 1) / d)) 1).
Proof.
  intros Hg. induction divs as [|d t IH]; intros D; cbn [root_test].
  - exists true. split; auto. split; [intros _ d []|auto].
  - destruct (D d) as [Hd Dd]; [now left|]. pose proof (Z.divide_pos_le d (m - 1) ltac:(lia) Dd).
    rewrite Z.quot_div_nonneg by lia.
    assert (0 <= (m - 1) / d < 2 ^ 31).
    { split; [apply Z.div_pos; lia|]. apply Z.le_lt_trans with (m - 1); [|lia]. apply Z.div_le_upper_bound; nia. }
    rewrite mod_pow_ok by lia. cbn [obind].
    assert (E1 : (g ^ ((m - 1) / d) mod m =? 1) = true <-> eqm m (g ^ ((m - 1) / d)) 1).
    { rewrite Z.eqb_eq. rewrite (eqm_mod_eq m) by lia. rewrite (Z.mod_small 1) by lia. tauto. }
    destruct (g ^ ((m - 1) / d) mod m =? 1) eqn:E.
    + exists false. split; auto. split; [discriminate|]. intros K. exfalso. apply (K d); [now left|]. now apply E1.
    + destruct IH as (b & -> & B); [intros; apply D; now right|]. exists b. split; auto. rewrite B.
      split; intros K d' H'; [destruct H' as [<-|H']|]; auto.
      * intros C. apply E1 in C. discriminate.
      * apply K. now right.
Qed.
End Test.

Lemma ord_generator m g : prime m -> 0 < g < m -> ord m g (m - 1) -> generator m g.
Proof.
  intros P Hg O. pose proof (prime_ge_2 _ P) as G2.
  assert (Inj : forall i j, 0 <= i < m - 1 -> 0 <= j < m - 1 -> g ^ i mod m = g ^ j mod m -> i = j).
  { assert (W : forall i j, 0 <= i -> i < j -> j < m - 1 -> g ^ i mod m = g ^ j mod m -> False).
    { intros i j Hi Hij Hj E. apply (eqm_mod_eq m) in E; [|lia].
      apply (ord_below m P g (m - 1) (j - i)); auto; [lia|lia|].
      apply eqm_cancel with (c := g ^ i); auto.
      - apply not_div_pow; auto. apply not_div_small; auto.
      - rewrite <- Z.pow_add_r by lia. replace (i + (j - i)) with j by lia. rewrite Z.mul_1_r.
        now apply eqm_sym. }
    intros i j Hi Hj E. destruct (Z.lt_trichotomy i j) as [C|[C|C]]; auto; exfalso.
    - apply (W i j); auto; lia.
    - apply (W j i); auto; lia. }
  split; auto. intros a Ha.
  set (l := map (fun i => g ^ (i - 1) mod m) (upto (m - 1))).
  assert (ND : NoDup l).
  { apply map_NoDup; [apply upto_NoDup|]. intros x y Hx Hy E. apply upto_In in Hx, Hy.
    apply Inj in E; lia. }
  assert (IN : incl l (upto (m - 1))).
  { intros v Hv. apply in_map_iff in Hv. destruct Hv as (i & <- & Hi). apply upto_In in Hi. apply upto_In.
    pose proof (Z.mod_pos_bound (g ^ (i - 1)) m ltac:(lia)).
    destruct (Z.eq_dec (g ^ (i - 1) mod m) 0) as [Z0|]; [|lia]. exfalso.
    apply Z.mod_divide in Z0; [|lia]. revert Z0. apply not_div_pow; auto; [lia|]. apply not_div_small; auto. }
  assert (Ia : In a l).
  { assert (IL : incl (upto (m - 1)) l) by (apply NoDup_length_incl; auto; unfold l; rewrite map_length; lia).
    apply IL, upto_In. lia. }
  apply in_map_iff in Ia. destruct Ia as (i & Ei & Hi). apply upto_In in Hi. exists (i - 1). split; [lia|auto].
Qed.

Lemma generator_two : generator 2 1.
Proof.
  split.
  - intros i j Hi Hj _. lia.
  - intros a Ha. exists 0. split; [lia|]. assert (a = 1) as -> by lia. reflexivity.
Qed.

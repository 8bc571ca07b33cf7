(** Theorems for include/mtl/sps.hpp: set power series. *)
From Coq Require Import Lia Ring_theory Ring ZArith Factorial.
From Verif Require Import Base BaseLemmas ListExtra NthExtra RSum BitConvModel BitConvSweep BitConvProof BitConvSubset SpsModel SpsAlg SpsRep SpsProof SpsProof2 SpsProof3.

(** The sum over the supersets [j] of [u] of [x_j s_(j \ u)]. *)
Definition superset_conv {T} (zero : T) (add mul : T -> T -> T) (s x : list T) (u : nat) : T :=
  total zero add (filter (fun j => subset u j) (seq 0 (length x))) (fun j => mul (nth j x zero) (nth (Nat.ldiff j u) s zero)).

Section Props.
Variable T : Type.
Variables (zero one : T) (add mul sub : T -> T -> T) (opp : T -> T) (eqb : T -> T -> bool).
Hypothesis RT : ring_theory zero one add mul sub opp eq.
Hypothesis EQ : forall x y, eqb x y = true <-> x = y.
Add Ring Tring : RT.
Let SR := SRT T zero one add mul sub opp RT.

Lemma of_nat_add a b : of_nat zero one add (a + b) = add (of_nat zero one add a) (of_nat zero one add b).
Proof.
  induction a as [|a IH]; [change (of_nat zero one add 0) with zero; cbn [Nat.add]; ring|].
  cbn [Nat.add]. change (add (of_nat zero one add (a + b)) one = add (add (of_nat zero one add a) one) (of_nat zero one add b)). rewrite IH. ring.
Qed.
Lemma of_nat_mul a b : of_nat zero one add (a * b) = mul (of_nat zero one add a) (of_nat zero one add b).
Proof. induction a as [|a IH]; [cbn [Nat.mul]; change (of_nat zero one add 0) with zero; ring|]. cbn [Nat.mul]. rewrite of_nat_add, IH. change (of_nat zero one add (S a)) with (add (of_nat zero one add a) one). ring. Qed.
Lemma ffact_fact k : ffact T zero one add mul k = of_nat zero one add (fact k).
Proof.
  induction k as [|k IH]; [change (one = add zero one); ring|]. cbn [ffact]. rewrite IH. change (fact (S k)) with (S k * fact k)%nat. rewrite of_nat_mul. ring.
Qed.
Lemma set_power_spow A k : forall s, set_power zero one add mul A k s = spow T zero one add mul (fun t => nth t A zero) k s.
Proof.
  induction k as [|k IH]; intros s; [reflexivity|]. cbn [set_power spow]. unfold sconv, total, RSum.sum. induction (filter _ _) as [|t l IL]; cbn [fold_right]; [reflexivity|]. rewrite IH. now f_equal.
Qed.

(** C78.  The exponential of a series without constant term is, at every set [s], the sum
    over the partitions of [s] of the product over the blocks; and the sum over the
    partitions in [k] blocks, times [k!], is the coefficient of the [k]-th power. *)
Theorem C78_exp : forall LIM n A, n <= LIM -> length A = 2 ^ n -> nth 0 A zero = zero ->
  exists R, sps_exp zero one add sub mul eqb LIM n A = Some R /\ length R = 2 ^ n /\
    forall s, s < 2 ^ n -> nth s R zero = compose zero one add mul (fun _ => one) A s.
Proof.
  intros LIM n A Hn LA A0. destruct (sps_exp_ok T zero one add mul sub opp eqb RT EQ LIM A n) as (R & E & L & V); auto. exists R. auto.
Qed.
Theorem C78_power : forall A, nth 0 A zero = zero -> forall k s,
  set_power zero one add mul A k s = mul (of_nat zero one add (fact k)) (compose zero one add mul (kron zero one k) A s).
Proof.
  intros A A0 k s. rewrite set_power_spow, <- ffact_fact. apply (spow_pk T zero one add mul sub opp RT _ A0 s). apply Nat.pow_gt_lin_r. lia.
Qed.

(** C79.  Composition of an exponential generating function with a series without constant
    term, when [F] has more than [n] coefficients or at most one. *)
Theorem C79_composition : forall LIM n F A, n <= LIM + 1 -> 2 ^ n <= length A -> nth 0 A zero = zero -> (n < length F \/ length F <= 1)%nat ->
  exists R, comp_egf zero add sub mul eqb LIM n F A = Some R /\ length R = 2 ^ n /\
    forall s, s < 2 ^ n -> nth s R zero = compose zero one add mul (fun k => nth k F zero) A s.
Proof.
  intros LIM n F A Hn LA A0 HF. destruct (comp_egf_ok T zero one add mul sub opp eqb RT EQ LIM F A n) as (R & E & L & V); auto. exists R. auto.
Qed.

(** C80.  Composition of a polynomial with a series with a constant term. *)
Theorem C80_polynomial : forall LIM n F A, n <= LIM + 1 -> nth 0 A zero <> zero -> (n < length F \/ length F = 1)%nat ->
  exists R, comp_poly zero one add sub mul eqb LIM n F A = Some R /\ length R = 2 ^ n /\
    forall s, s < 2 ^ n -> nth s R zero = total zero add (seq 0 (length F)) (fun i => mul (nth i F zero) (set_power zero one add mul A i s)).
Proof.
  intros LIM n F A Hn A0 HF. destruct (comp_poly_ok T zero one add mul sub opp eqb RT EQ LIM n F A) as (R & E & L & V); auto.
  { destruct A; [now cbn in A0|cbn; lia]. }
  exists R. split; [auto|]. split; [auto|]. intros s Hs. rewrite (proj1 (V s Hs) A0). apply sum_ext. intros i _. now rewrite set_power_spow.
Qed.
(** Without a constant term the coefficients are taken as those of an exponential generating
    function. *)
Theorem C80_no_constant : forall LIM n F A, n <= LIM + 1 -> 0 < length A -> nth 0 A zero = zero -> (n < length F \/ length F = 1)%nat ->
  exists R, comp_poly zero one add sub mul eqb LIM n F A = Some R /\ length R = 2 ^ n /\
    forall s, s < 2 ^ n -> nth s R zero = compose zero one add mul (fun k => nth k F zero) A s.
Proof.
  intros LIM n F A Hn LA A0 HF. destruct (comp_poly_ok T zero one add mul sub opp eqb RT EQ LIM n F A) as (R & E & L & V); auto.
  exists R. split; [auto|]. split; [auto|]. intros s Hs. now rewrite (proj2 (V s Hs) A0).
Qed.

(** C81.  The logarithm of a series with constant term one: its exponential is the series,
    and it is the only series without constant term with this property. *)
Theorem C81_log : forall LIM n s, n <= LIM -> nth_error s 0 = Some one ->
  exists L, sps_log zero one add sub mul opp eqb LIM n s = Some L /\ length L = 2 ^ n /\ nth 0 L zero = zero /\
    forall r, r < 2 ^ n -> compose zero one add mul (fun _ => one) L r = nth r s zero.
Proof.
  intros LIM n s Hn S0. assert (LS : 0 < length s) by (apply nth_error_Some; congruence). apply (nth_error_nth _ _ zero) in S0.
  destruct (sps_log_ok T zero one add mul sub opp eqb RT EQ LIM n s) as (L & E & LL & L0 & V); auto. exists L. auto.
Qed.
Theorem C81_unique : forall n L L', nth 0 L zero = zero -> nth 0 L' zero = zero ->
  (forall r, r < 2 ^ n -> compose zero one add mul (fun _ => one) L r = compose zero one add mul (fun _ => one) L' r) -> forall r, r < 2 ^ n -> nth r L zero = nth r L' zero.
Proof.
  intros n L L' L0 L0' H. set (a := fun t => nth t L zero) in *. set (b := fun t => nth t L' zero) in *.
  change (forall r, r < 2 ^ n -> cmp T zero one add mul a (fun _ => one) r = cmp T zero one add mul b (fun _ => one) r) in H. change (forall r, r < 2 ^ n -> a r = b r).
  change (a 0%nat = zero) in L0. change (b 0%nat = zero) in L0'. clearbody a b.
  induction n as [|n IH]; intros r Hr; [assert (r = 0)%nat by (cbn in Hr; lia); subst; congruence|].
  pose proof (Nat.pow_succ_r' 2 n). assert (IH' : forall r, r < 2 ^ n -> a r = b r) by (apply IH; intros; apply H; lia).
  destruct (split_lt n r Hr) as [Hl|(q & -> & Hl)]; [auto|]. clear Hr. set (E := cmp T zero one add mul a (fun _ => one)).
  assert (EB : forall t, t < 2 ^ n -> cmp T zero one add mul b (fun _ => one) t = E t) by (intros; symmetry; apply H; lia).
  assert (S : forall t, t < 2 ^ n -> sconv T zero add mul (hi T n a) E t = sconv T zero add mul (hi T n b) E t).
  { intros t Ht. specialize (H (2 ^ n + t)%nat ltac:(lia)). rewrite !(cmp_hi T zero one add mul sub opp RT) in H by auto. unfold E.
    transitivity (sconv T zero add mul (hi T n a) (cmp T zero one add mul a (up T (fun _ => one))) t); [reflexivity|]. rewrite H.
    apply (sconv_ext T zero one add mul sub opp RT n); auto. }
  assert (E0 : E 0%nat = one) by (unfold E; now rewrite (cmp_0 T zero one add mul sub opp RT)).
  change (hi T n a q = hi T n b q). revert S q Hl. generalize (hi T n a) as x, (hi T n b) as y. intros x y S q. induction q as [q IQ] using lt_wf_ind. intros Hq. specialize (S q Hq). unfold sconv in S.
  rewrite Nat.add_1_r, seq_S, filter_app, !(sum_app _ _ _ _ _ SR) in S. cbn [Nat.add filter] in S. assert (SQ : subset q q = true) by (unfold subset; rewrite Nat.land_diag; apply Nat.eqb_refl).
  rewrite SQ, !sum_cons, !sum_nil, Nat.ldiff_diag, E0 in S.
  rewrite (sum_ext _ _ _ (filter (fun t => subset t q) (seq 0 q)) (fun t => mul (x t) (E (Nat.ldiff q t))) (fun t => mul (y t) (E (Nat.ldiff q t)))) in S.
  - set (z := RSum.sum T zero add _ _) in S. transitivity (add (opp z) (add z (add (mul (x q) one) zero))); [ring|]. rewrite S. ring.
  - intros t Ht. apply filter_In in Ht as [Ht _]. apply in_seq in Ht. rewrite IQ by lia. reflexivity.
Qed.

(** C82.  The inverse of a series with constant term one for the subset convolution. *)
Theorem C82_inverse : forall LIM n s, n <= LIM -> length s <= 2 ^ n -> nth 0 s zero = one ->
  exists R, sps_inv zero one add sub mul LIM n s = Some R /\ length R = 2 ^ n /\
    forall t, t < 2 ^ n -> subset_conv zero add mul R s t = if t =? 0 then one else zero.
Proof.
  intros LIM n s Hn Ls S0. destruct (sps_inv_ok T zero one add mul sub opp eqb RT EQ LIM n s) as (R & E & L & V); auto. exists R. auto.
Qed.

(** C83.  The transposed subset convolution of vectors with [length x = 2^n]. *)
Lemma superset_tconv s x n u : length x = 2 ^ n -> superset_conv zero add mul s x u = tconv T zero add mul n (fun t => nth t s zero) (fun t => nth t x zero) u.
Proof. intros L. unfold superset_conv, tconv. rewrite L. apply (sum_filter _ _ _ _ _ SR). Qed.
Theorem C83_transposed_convolution : forall LIM n s x, n <= LIM -> length x = 2 ^ n -> length s <= 2 ^ n ->
  exists y, transposed_conv zero add sub mul LIM s x = Some y /\ length y = 2 ^ n /\ forall u, u < 2 ^ n -> nth u y zero = superset_conv zero add mul s x u.
Proof.
  intros LIM n s x Hn Lx Ls. destruct (transposed_conv_ok T zero one add mul sub opp eqb RT EQ LIM n s x) as (y & E & L & V); auto. exists y. split; [auto|]. split; [auto|].
  intros u Hu. rewrite (superset_tconv s x n) by auto. auto.
Qed.
(** The result is the transpose of the map [f -> s f]. *)
Theorem C83_adjoint : forall LIM n s x f, n <= LIM -> length x = 2 ^ n -> length s <= 2 ^ n -> exists y, transposed_conv zero add sub mul LIM s x = Some y /\
  total zero add (seq 0 (2 ^ n)) (fun u => mul (nth u f zero) (nth u y zero)) = total zero add (seq 0 (2 ^ n)) (fun j => mul (nth j x zero) (subset_conv zero add mul s f j)).
Proof.
  intros LIM n s x f Hn Lx Ls. destruct (transposed_conv_ok T zero one add mul sub opp eqb RT EQ LIM n s x) as (y & E & L & V); auto. exists y. split; [auto|].
  transitivity (RSum.sum T zero add (seq 0 (2 ^ n)) (fun u => mul (nth u f zero) (tconv T zero add mul n (fun t => nth t s zero) (fun t => nth t x zero) u))).
  - apply sum_ext. intros u Hu. apply in_seq in Hu. now rewrite V by lia.
  - rewrite (tconv_adj T zero one add mul sub opp eqb RT EQ n _ _ (fun t => nth t f zero)). reflexivity.
Qed.

(** C84.  The power projection. *)
Theorem C84_projection : forall LIM s x n, n <= LIM -> length s = 2 ^ n -> 2 ^ n <= length x -> nth 0 s zero = zero ->
  exists y, transposed_egf_vec zero add sub mul eqb LIM s x = Some y /\ length y = n + 1 /\
    forall k, k <= n -> nth k y zero = total zero add (seq 0 (2 ^ n)) (fun v => mul (nth v x zero) (compose zero one add mul (kron zero one k) s v)).
Proof.
  intros LIM s x n Hn Ls Lx S0. pose proof (pow2_pos n). unfold transposed_egf_vec. rewrite Ls. destruct (Nat.ltb_spec 0 (2 ^ n)); [|lia]. cbn [guard obind]. rewrite bitlen_pow2.
  destruct (transposed_egf_ok T zero one add mul sub opp eqb RT EQ LIM s S0 n Hn ltac:(lia) x Lx) as (y & E & L & V). exists y. auto.
Qed.
(** It is the transpose of [F -> F(s)]. *)
Theorem C84_adjoint : forall LIM s x n F, n <= LIM -> length s = 2 ^ n -> 2 ^ n <= length x -> nth 0 s zero = zero ->
  exists y, transposed_egf_vec zero add sub mul eqb LIM s x = Some y /\
    total zero add (seq 0 (n + 1)) (fun k => mul (F k) (nth k y zero)) = total zero add (seq 0 (2 ^ n)) (fun v => mul (nth v x zero) (compose zero one add mul F s v)).
Proof.
  intros LIM s x n F Hn Ls Lx S0. destruct (C84_projection LIM s x n Hn Ls Lx S0) as (y & E & L & V). exists y. split; [auto|].
  transitivity (RSum.sum T zero add (seq 0 (n + 1)) (fun k => RSum.sum T zero add (seq 0 (2 ^ n)) (fun v => mul (F k) (mul (nth v x zero) (pk T zero one add mul (fun t => nth t s zero) k v))))).
  - apply sum_ext. intros k Hk. apply in_seq in Hk. rewrite V by lia. symmetry. apply (sum_mul _ _ _ _ _ SR).
  - rewrite (sum_swap _ _ _ _ _ SR). apply sum_ext. intros v Hv. apply in_seq in Hv.
    transitivity (mul (nth v x zero) (RSum.sum T zero add (seq 0 (n + 1)) (fun k => mul (F k) (pk T zero one add mul (fun t => nth t s zero) k v)))).
    + rewrite <- (sum_mul _ _ _ _ _ SR). apply sum_ext. intros. ring.
    + f_equal. symmetry. apply (cmp_sum T zero one add mul sub opp RT (fun t => nth t s zero) n). lia.
Qed.
End Props.

(** C79: with [2 <= length F <= n] the last product is made with rows that were not merged. *)
Theorem C79_short_refuted : exists n F A R, n <= 4 + 1 /\ 2 ^ n <= length A /\ nth 0 A 0%Z = 0%Z /\ comp_egf 0%Z Z.add Z.sub Z.mul Z.eqb 4 n F A = Some R /\
  nth 3 R 0%Z <> compose 0%Z 1%Z Z.add Z.mul (fun k => nth k F 0%Z) A 3.
Proof. exists 2, [0; 1]%Z, [0; 1; 2; 3]%Z, [0; 1; 2; 0]%Z. vm_compute. repeat split; auto; discriminate. Qed.
(** C80: without a constant term the result is not the polynomial of the series. *)
Theorem C80_refuted : exists n F A R, n < length F /\ comp_poly 0%Z 1%Z Z.add Z.sub Z.mul Z.eqb 4 n F A = Some R /\
  nth 3 R 0%Z <> total 0%Z Z.add (seq 0 (length F)) (fun i => (nth i F 0 * set_power 0 1 Z.add Z.mul A i 3)%Z).
Proof. exists 2, [0; 0; 1]%Z, [0; 1; 1; 0]%Z, [0; 0; 0; 1]%Z. vm_compute. repeat split; auto; discriminate. Qed.
(** C82: the constant term is not checked. *)
Theorem C82_refuted : exists s R, sps_inv 0%Z 1%Z Z.add Z.sub Z.mul 4 1 s = Some R /\ subset_conv 0%Z Z.add Z.mul R s 0 <> 1%Z.
Proof. exists [2; 0]%Z, [1; 0]%Z. vm_compute. repeat split; auto; discriminate. Qed.
(** C83: a shorter [x] is not padded before it is reversed. *)
Theorem C83_refuted : exists s x y, transposed_conv 0%Z Z.add Z.sub Z.mul 4 s x = Some y /\ nth 0 y 0%Z <> superset_conv 0%Z Z.add Z.mul s x 0.
Proof. exists [1; 0]%Z, [5]%Z, [0; 5]%Z. vm_compute. repeat split; auto; discriminate. Qed.

Example C78_example : sps_exp 0%Z 1%Z Z.add Z.sub Z.mul Z.eqb 2 2 [0; 1; 2; 3]%Z = Some [1; 1; 2; 5]%Z /\ partitions 3 = [[3]; [2; 1]] /\
  compose 0%Z 1%Z Z.add Z.mul (fun _ => 1%Z) [0; 1; 2; 3]%Z 3 = 5%Z.
Proof. vm_compute. auto. Qed.
Example C79_example : comp_egf 0%Z Z.add Z.sub Z.mul Z.eqb 2 2 [2; 3; 5]%Z [0; 1; 2; 3]%Z = Some [2; 3; 6; 19]%Z.
Proof. vm_compute. auto. Qed.
Example C80_example : comp_poly 0%Z 1%Z Z.add Z.sub Z.mul Z.eqb 2 2 [2; 3; 5]%Z [2; 1; 2; 3]%Z = Some [28; 23; 46; 89]%Z.
Proof. vm_compute. auto. Qed.
Example C81_example : sps_log 0%Z 1%Z Z.add Z.sub Z.mul Z.opp Z.eqb 2 2 [1; 1; 2; 3]%Z = Some [0; 1; 2; 1]%Z.
Proof. vm_compute. auto. Qed.
Example C82_example : sps_inv 0%Z 1%Z Z.add Z.sub Z.mul 2 2 [1; 1; 2; 3]%Z = Some [1; -1; -2; 1]%Z.
Proof. vm_compute. auto. Qed.
Example C83_example : transposed_conv 0%Z Z.add Z.sub Z.mul 2 [1; 2; 3; 4]%Z [5; 6; 7; 8]%Z = Some [70; 30; 23; 8]%Z.
Proof. vm_compute. auto. Qed.
Example C84_example : transposed_egf_vec 0%Z Z.add Z.sub Z.mul Z.eqb 2 [0; 1; 2; 3]%Z [1; 2; 3; 4]%Z = Some [1; 20; 8]%Z.
Proof. vm_compute. auto. Qed.

Print Assumptions C78_exp.
Print Assumptions C78_power.
Print Assumptions C79_composition.
Print Assumptions C79_short_refuted.
Print Assumptions C80_polynomial.
Print Assumptions C80_no_constant.
Print Assumptions C80_refuted.
Print Assumptions C81_log.
Print Assumptions C81_unique.
Print Assumptions C82_inverse.
Print Assumptions C82_refuted.
Print Assumptions C83_transposed_convolution.
Print Assumptions C83_adjoint.
Print Assumptions C83_refuted.
Print Assumptions C84_projection.
Print Assumptions C84_adjoint.

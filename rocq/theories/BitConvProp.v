From Coq Require Import Lia Ring_theory ZArithRing Ring QArith.
From Verif Require Import Base BaseLemmas RSum BitConvModel BitConvSweep BitConvProof BitConvSubset.
Open Scope nat_scope.

(** C34.  For every commutative ring and every [n]: SubsetZetaInline gives the sums over
    subsets, SubsetMobius and SubsetMobiusInline give the only vector with these subset
    sums, and the two transforms invert each other. *)
Theorem C34_zeta : forall (T : Type) (zero one : T) (add mul sub : T -> T -> T) (opp : T -> T),
  ring_theory zero one add mul sub opp eq -> forall n A, length A = 2 ^ n ->
  exists zA, zeta_inline add A = Some zA /\ length zA = 2 ^ n /\ forall s, s < 2 ^ n -> nth_error zA s = Some (subset_sum zero add A s).
Proof.
  intros T zero one add mul sub opp RT n A HA. rewrite (zeta_inline_eq T add _ n) by auto. eexists. split; [reflexivity|].
  rewrite trans_length by auto. split; [reflexivity|]. intros s Hs. rewrite (nth_error_nth' _ zero) by (rewrite trans_length; auto). f_equal.
  rewrite (zeta_sem T zero one add mul sub opp RT) by auto. symmetry. apply (subset_sum_ksum T zero one add mul sub opp RT).
Qed.
Theorem C34_mobius : forall (T : Type) (zero one : T) (add mul sub : T -> T -> T) (opp : T -> T),
  ring_theory zero one add mul sub opp eq -> forall n A, length A = 2 ^ n ->
  exists mA, mobius sub A = Some mA /\ mobius_inline sub A = Some mA /\ length mA = 2 ^ n /\
    (forall s, s < 2 ^ n -> nth_error A s = Some (subset_sum zero add mA s)) /\
    zeta_inline add mA = Some A.
Proof.
  intros T zero one add mul sub opp RT n A HA. rewrite (mobius_eq T sub _ n), (mobius_inline_eq T sub _ n) by auto. exists (trans (fm T sub) n A).
  assert (L : length (trans (fm T sub) n A) = 2 ^ n) by now apply trans_length.
  assert (E : trans (fz T add) n (trans (fm T sub) n A) = A) by now apply (zeta_mobius T zero one add mul sub opp RT).
  split; [reflexivity|]. split; [reflexivity|]. split; [auto|]. split.
  - intros s Hs. rewrite <- E at 1. rewrite (nth_error_nth' _ zero) by (rewrite trans_length; auto). f_equal.
    rewrite (zeta_sem T zero one add mul sub opp RT) by auto. symmetry. apply (subset_sum_ksum T zero one add mul sub opp RT).
  - rewrite (zeta_inline_eq T add _ n) by auto. now rewrite E.
Qed.
Theorem C34_inverse : forall (T : Type) (zero one : T) (add mul sub : T -> T -> T) (opp : T -> T),
  ring_theory zero one add mul sub opp eq -> forall n A zA, length A = 2 ^ n -> zeta_inline add A = Some zA ->
  mobius sub zA = Some A /\ mobius_inline sub zA = Some A.
Proof.
  intros T zero one add mul sub opp RT n A zA HA E. rewrite (zeta_inline_eq T add _ n) in E by auto. injection E as <-.
  assert (L : length (trans (fz T add) n A) = 2 ^ n) by now apply trans_length.
  rewrite (mobius_eq T sub _ n), (mobius_inline_eq T sub _ n) by auto. now rewrite (mobius_zeta T zero one add mul sub opp RT).
Qed.
Theorem C34_or : forall (T : Type) (zero one : T) (add mul sub : T -> T -> T) (opp : T -> T),
  ring_theory zero one add mul sub opp eq -> forall n A B, length A = 2 ^ n -> length B = 2 ^ n ->
  exists C, or_inline add sub mul A B = Some C /\ length C = 2 ^ n /\
    forall k, k < 2 ^ n -> nth_error C k = Some (conv zero add mul Nat.lor A B k).
Proof.
  intros T zero one add mul sub opp RT n A B HA HB. rewrite (or_inline_eq T zero one add mul sub opp RT A B n) by auto. eexists. split; [reflexivity|].
  split; [apply conv_list_length|]. intros k Hk. rewrite (nth_error_nth' _ zero) by (rewrite conv_list_length; auto). f_equal. now apply conv_list_nth.
Qed.
(** BitwiseAndConvolution takes vectors of any lengths, not both empty. *)
Theorem C34_and : forall (T : Type) (zero one : T) (add mul sub : T -> T -> T) (opp : T -> T),
  ring_theory zero one add mul sub opp eq -> forall A B, 0 < max (length A) (length B) ->
  exists C n, and_convolution zero add sub mul A B = Some C /\ length C = 2 ^ n /\ length A <= 2 ^ n /\ length B <= 2 ^ n /\
    forall k, k < 2 ^ n -> nth_error C k = Some (conv zero add mul Nat.land A B k).
Proof.
  intros T zero one add mul sub opp RT A B H0. rewrite (and_convolution_eq T zero one add mul sub opp RT A B H0).
  pose proof (bitlen_bound (max (length A) (length B) - 1)) as Hb.
  eexists. exists (bitlen (max (length A) (length B) - 1)). split; [reflexivity|].
  split; [apply conv_list_length|]. split; [lia|]. split; [lia|]. intros k Hk. rewrite (nth_error_nth' _ zero) by (rewrite conv_list_length; auto). f_equal. now apply conv_list_nth.
Qed.
(** On a length that is not a power of two the transforms leave the vector. *)
Theorem C34_length_refuted : ~ forall A : list Z, exists zA, zeta_inline Z.add A = Some zA.
Proof. intros H. destruct (H [1; 2; 3]%Z) as (zA & E). vm_compute in E. discriminate. Qed.

Example C34_example : zeta_inline Z.add [1; 10; 100; 1000; 5; 7; 9; 11]%Z = Some [1; 11; 101; 1111; 6; 23; 115; 1143]%Z /\
  mobius Z.sub [1; 11; 101; 1111; 6; 23; 115; 1143]%Z = Some [1; 10; 100; 1000; 5; 7; 9; 11]%Z /\
  or_inline Z.add Z.sub Z.mul [1; 2; 3; 4]%Z [5; 6; 7; 8]%Z = Some [5; 28; 43; 184]%Z /\
  and_convolution 0%Z Z.add Z.sub Z.mul [1; 2; 3]%Z [5; 6; 7; 8]%Z = Some [83; 28; 45; 0]%Z.
Proof. vm_compute. auto. Qed.

(** C35.  HadamardTransform is the signed sum, twice it multiplies by [2^n], and
    BitwiseXorConvolution is exact when the scaling undoes that multiplication. *)
Theorem C35_hadamard : forall (T : Type) (zero one : T) (add mul sub : T -> T -> T) (opp : T -> T),
  ring_theory zero one add mul sub opp eq -> forall n A, length A = 2 ^ n ->
  exists hA, hadamard add sub A = Some hA /\ length hA = 2 ^ n /\
    (forall s, s < 2 ^ n -> nth_error hA s = Some (hadamard_sum zero add sub A s)) /\
    hadamard add sub hA = Some (map (times_pow2 add n) A).
Proof.
  intros T zero one add mul sub opp RT n A HA. rewrite (hadamard_eq T add sub _ n) by auto. exists (trans (fh T add sub) n A). split; [reflexivity|].
  assert (L : length (trans (fh T add sub) n A) = 2 ^ n) by now apply trans_length.
  split; [auto|]. split.
  - intros s Hs. rewrite (nth_error_nth' _ zero) by lia. f_equal.
    rewrite (hadamard_sem T zero one add mul sub opp RT) by auto. symmetry. apply (hadamard_sum_ksum T zero one add mul sub opp RT).
  - rewrite (hadamard_eq T add sub _ n) by auto. now rewrite (hadamard_twice T zero one add mul sub opp RT).
Qed.
Theorem C35_xor : forall (T : Type) (zero one : T) (add mul sub : T -> T -> T) (opp : T -> T),
  ring_theory zero one add mul sub opp eq -> forall scale n A B, length A = 2 ^ n -> length B = 2 ^ n ->
  (forall c, scale n (times_pow2 add n c) = c) ->
  exists C, xor_convolution add sub mul scale A B = Some C /\ length C = 2 ^ n /\
    forall k, k < 2 ^ n -> nth_error C k = Some (conv zero add mul Nat.lxor A B k).
Proof.
  intros T zero one add mul sub opp RT scale n A B HA HB Hs. rewrite (xor_convolution_eq T zero one add mul sub opp RT scale A B n) by auto.
  eexists. split; [reflexivity|]. rewrite map_length. split; [apply conv_list_length|]. intros k Hk.
  rewrite nth_error_map, (nth_error_nth' _ zero) by (rewrite conv_list_length; auto). cbn [option_map]. rewrite Hs. f_equal. now apply conv_list_nth.
Qed.
(** The branch with [pow] and [inv]: [pow 2 n] is [2^n] and [inv] gives its inverse. *)
Theorem C35_xor_inv : forall (T : Type) (zero one : T) (add mul sub : T -> T -> T) (opp : T -> T),
  ring_theory zero one add mul sub opp eq -> forall (pow : T -> nat -> T) (inv : T -> T) n A B, length A = 2 ^ n -> length B = 2 ^ n ->
  pow (add one one) n = times_pow2 add n one -> mul (times_pow2 add n one) (inv (times_pow2 add n one)) = one ->
  exists C, xor_convolution add sub mul (scale_inv mul pow inv (add one one)) A B = Some C /\ length C = 2 ^ n /\
    forall k, k < 2 ^ n -> nth_error C k = Some (conv zero add mul Nat.lxor A B k).
Proof.
  intros T zero one add mul sub opp RT pow inv n A B HA HB Hp Hi. apply (C35_xor T zero one add mul sub opp RT); auto.
  intros c. unfold scale_inv. rewrite Hp. pose proof (SRT T zero one add mul sub opp RT) as SR.
  assert (E : times_pow2 add n c = mul c (times_pow2 add n one)).
  { clear -SR. induction n as [|n IH]; [symmetry; cbn; rewrite (SRmul_comm SR); apply (SRmul_1_l SR)|].
    rewrite !times_S, IH. symmetry. apply (mul_add_l _ _ _ _ _ SR). }
  rewrite E, <- (SRmul_assoc SR), Hi, (SRmul_comm SR). apply (SRmul_1_l SR).
Qed.
Lemma Zrt : ring_theory 0%Z 1%Z Z.add Z.mul Z.sub Z.opp eq.
Proof. constructor; intros; ring. Qed.
Lemma times_pow2_Z n c : times_pow2 Z.add n c = (c * 2 ^ Z.of_nat n)%Z.
Proof.
  induction n as [|n IH]; [cbn; lia|]. rewrite times_S, IH, Nat2Z.inj_succ, Z.pow_succ_r by lia. ring.
Qed.
(** The integral branch, for integers that do not overflow. *)
Theorem C35_xor_int : forall n A B, length A = 2 ^ n -> length B = 2 ^ n ->
  exists C, xor_convolution Z.add Z.sub Z.mul scale_shift A B = Some C /\ length C = 2 ^ n /\
    forall k, k < 2 ^ n -> nth_error C k = Some (conv 0%Z Z.add Z.mul Nat.lxor A B k).
Proof.
  intros n A B HA HB. apply (C35_xor Z 0%Z 1%Z Z.add Z.mul Z.sub Z.opp Zrt); auto.
  intros c. unfold scale_shift. rewrite times_pow2_Z, Z.shiftr_div_pow2 by lia. apply Z.div_mul. apply Z.pow_nonzero; lia.
Qed.
(** The remaining branch (floating types, say) starts from [p = 2] and divides by
    [2^(n+1)]: the convolution of [1] and [1] is one half. *)
Theorem C35_div_refuted : ~ forall A B : list Q, length A = 1 -> length B = 1 ->
  exists c, xor_convolution Qplus Qminus Qmult (scale_div Qmult Qdiv (2 # 1)) A B = Some [c] /\ Qeq c (conv 0%Q Qplus Qmult Nat.lxor A B 0).
Proof. intros H. destruct (H [1%Q] [1%Q]) as (c & E & Q); [reflexivity|reflexivity|]. vm_compute in E. injection E as <-. vm_compute in Q. discriminate. Qed.

Example C35_example : hadamard Z.add Z.sub [1; 2; 3; 4]%Z = Some [10; -2; -4; 0]%Z /\
  xor_convolution Z.add Z.sub Z.mul scale_shift [1; 2; 3; 4]%Z [5; 6; 7; 8]%Z = Some [70; 68; 62; 60]%Z.
Proof. vm_compute. auto. Qed.

(** C36.  For every commutative ring, every two vectors (not both empty, of any lengths)
    whose padded length [2^n] has [n <= LIM]. *)
Theorem C36_subset_convolution : forall (T : Type) (zero one : T) (add mul sub : T -> T -> T) (opp : T -> T),
  ring_theory zero one add mul sub opp eq -> forall LIM n A B, 0 < max (length A) (length B) ->
  length A <= 2 ^ n -> length B <= 2 ^ n -> n <= LIM ->
  exists C m, subset_convolution zero add sub mul LIM A B = Some C /\ length C = 2 ^ m /\ m <= n /\ length A <= 2 ^ m /\ length B <= 2 ^ m /\
    forall s, s < 2 ^ m -> nth_error C s = Some (subset_conv zero add mul A B s).
Proof.
  intros T zero one add mul sub opp RT LIM n A B H0 HA HB Hn.
  pose proof (bitlen_bound (max (length A) (length B) - 1)) as Hb.
  assert (Hl : bitlen (max (length A) (length B) - 1) <= n).
  { unfold bitlen. destruct (Nat.eqb_spec (max (length A) (length B) - 1) 0); [lia|]. apply Nat.log2_lt_pow2; lia. }
  rewrite (subset_convolution_ok T zero one add mul sub opp RT LIM A B H0) by lia. eexists. exists (bitlen (max (length A) (length B) - 1)).
  split; [reflexivity|]. unfold conv_out. rewrite map_length, seq_length. repeat split; try lia. intros s Hs.
  rewrite (nth_error_nth' _ zero) by (rewrite map_length, seq_length; auto). f_equal. now apply map_seq_nth.
Qed.
Theorem C36_square : forall (T : Type) (zero one : T) (add mul sub : T -> T -> T) (opp : T -> T),
  ring_theory zero one add mul sub opp eq -> forall LIM n A, 0 < length A -> length A <= 2 ^ n -> n <= LIM ->
  exists C m, subset_convolution_square zero add sub mul LIM A = Some C /\ length C = 2 ^ m /\ m <= n /\ length A <= 2 ^ m /\
    forall s, s < 2 ^ m -> nth_error C s = Some (subset_conv zero add mul A A s).
Proof.
  intros T zero one add mul sub opp RT LIM n A H0 HA Hn.
  pose proof (bitlen_bound (length A - 1)) as Hb.
  assert (Hl : bitlen (length A - 1) <= n).
  { unfold bitlen. destruct (Nat.eqb_spec (length A - 1) 0); [lia|]. apply Nat.log2_lt_pow2; lia. }
  rewrite (subset_square_ok T zero one add mul sub opp RT LIM A H0) by lia. eexists. exists (bitlen (length A - 1)).
  split; [reflexivity|]. unfold conv_out. rewrite map_length, seq_length. repeat split; try lia. intros s Hs.
  rewrite (nth_error_nth' _ zero) by (rewrite map_length, seq_length; auto). f_equal. now apply map_seq_nth.
Qed.

Example C36_example : subset_convolution 0%Z Z.add Z.sub Z.mul 4 [1; 2; 3; 4; 5]%Z [10; 20; 30; 40; 50; 60; 70; 80]%Z =
  Some [10; 40; 60; 200; 100; 260; 370; 800]%Z.
Proof. vm_compute. reflexivity. Qed.

Print Assumptions C34_zeta.
Print Assumptions C34_mobius.
Print Assumptions C34_inverse.
Print Assumptions C34_or.
Print Assumptions C34_and.
Print Assumptions C34_length_refuted.
Print Assumptions C35_hadamard.
Print Assumptions C35_xor.
Print Assumptions C35_xor_inv.
Print Assumptions C35_xor_int.
Print Assumptions C35_div_refuted.
Print Assumptions C36_subset_convolution.
Print Assumptions C36_square.
